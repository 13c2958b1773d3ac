(** * What the reports print *)
Set Warnings "-notation-overridden,-ambiguous-paths".
From mathcomp Require Import all_ssreflect all_algebra.
From Coq Require Import String.
From Verif Require Import Base Database FullSweep SpecDb DatabaseFacts SweepFacts Display SpecDisplay DisplayFacts Scripts SpecScripts.
Set Implicit Arguments.
Unset Strict Implicit.
Unset Printing Implicit Defensive.
Import GRing.Theory Num.Theory.
Local Open Scope string_scope.
Local Open Scope ring_scope.

Section Stats.
Variable R : rcfType.
Notation numbers := (@numbers R).
Notation stats := (@stats R).
Lemma numbers_ok vs : all is_num vs -> numbers vs = Ok (map (@real_of R) vs).
Proof. by elim: vs => //= -[|q|x|x] vs IH //= h; rewrite IH. Qed.
Lemma numbers_null vs : all num_or_null vs -> VNull \in vs -> numbers vs = Err TypeErr.
Proof. by elim: vs => //= -[|q|x|x] vs IH //=; rewrite inE /= => h /IH -> . Qed.
Lemma stat_perm (l l' : seq R) s : perm_eq l l' -> is_stat l s -> is_stat l' s.
Proof.
move=> h; have hs := perm_size h; case: s => [[m sd]|] /=; last by move=> e; apply/nilP; rewrite /nilp -hs e.
case=> h1 h2 h3 h4; split=> //.
- by move=> e; apply: h1; apply/nilP; rewrite /nilp hs e.
- by rewrite -hs h2; apply: perm_big.
- by rewrite -hs h4; apply: perm_big.
Qed.
Lemma stats_ok vs : all is_num vs -> exists2 s, stats vs = Ok s & is_stat (map (@real_of R) vs) s.
Proof.
move=> h; rewrite /Display.stats numbers_ok // bindE; set l := map _ vs.
exists (if l is [::] then None else Some (np_mean l, np_std l)); first by [].
case hl: l => [//|x l']; rewrite -hl /=.
have hn : (size l)%:R != 0 :> R by rewrite pnatr_eq0 hl.
split; first by rewrite hl.
- by rewrite /np_mean mulrA divff ?mul1r.
- exact: sqrtr_ge0.
- rewrite sqr_sqrtr ?mulrA ?divff ?mul1r //.
  apply: mulr_ge0; first by rewrite invr_ge0 ler0n.
  by apply: sumr_ge0 => i _; apply: sqr_ge0.
Qed.
Lemma stats_perm vs vs' : perm_eq vs vs' -> all is_num vs' -> exists2 s, stats vs = Ok s & is_stat (map (@real_of R) vs') s.
Proof.
move=> hp h; have h1 : all is_num vs by rewrite (perm_all _ hp).
have [s e hs] := stats_ok h1; exists s => //.
by apply: stat_perm hs; apply: perm_map.
Qed.
Lemma stats_null vs vs' : perm_eq vs vs' -> all num_or_null vs' -> VNull \in vs' -> stats vs = Err TypeErr.
Proof.
move=> hp h1 h2; rewrite /Display.stats numbers_null ?bindE //; first by rewrite (perm_all _ hp).
by rewrite (perm_mem hp).
Qed.

(** ** the rows a query selects *)
Lemma one_row t c ms tr p d i : tcols t = exp_cols -> (0 < i)%N ->
  [seq r <- rows_of c ms | holds t r (ep_cond [::] p d tr i)] =
  if is_setting tr p d c && (i <= size ms)%N then [:: nth [::] (rows_of c ms) i.-1] else [::].
Proof.
move=> ht hi; rewrite -{1}(mkseq_nth [::] (rows_of c ms)) /mkseq filter_map.
have e : {in iota 0 (size (rows_of c ms)), preim (nth [::] (rows_of c ms)) (fun r => holds t r (ep_cond [::] p d tr i)) =1
  predI (fun=> is_setting tr p d c) (pred1 i.-1)}.
  move=> j; rewrite mem_iota /= add0n {1}/rows_of rows_size => hj; rewrite /rows_of rows_nth // /holds /= /cell ht /=.
  rewrite andbT andbA andbA -[RHS]/(is_setting tr p d c && (j == i.-1)) add0r.
  have -> : (VNum j.+1%:R == VNum i%:R) = (j == i.-1).
    by rewrite -[LHS]/(j.+1%:R == i%:R :> rat) eqr_nat -{1}(prednK hi) eqSS.
  congr (_ && _); rewrite /is_setting.
  rewrite -[VNum (c_power c) == _]/(c_power c == p) -[VNum (c_damp c) == _]/(c_damp c == d) -[VText _ == _]/(c_trans c == tr).
  by case: (c_power c == p); case: (c_damp c == d); case: (c_trans c == tr).
rewrite (eq_in_filter e); case: (is_setting tr p d c) => /=; last by rewrite filter_pred0.
rewrite -(eq_filter (a1 := pred1 i.-1)) //.
case: ifP => h; first by rewrite filter_pred1_uniq ?iota_uniq // mem_iota /= add0n /rows_of rows_size prednK.
by apply/nilP; rewrite /nilp size_map size_filter -[_ == _]negbK -lt0n -has_count; apply/hasP => -[j];
  rewrite mem_iota /= add0n /rows_of rows_size => hj /eqP e'; rewrite e' prednK // h in hj.
Qed.
Lemma query_rows t l tr p d i col f : tcols t = exp_cols -> (0 < i)%N ->
  (forall c ms, (i <= size ms)%N -> cell t (nth [::] (rows_of c ms) i.-1) col = f (nth (VNull, VNull) ms i.-1)) ->
  [seq cell t r col | r <- logged_rows l & holds t r (ep_cond [::] p d tr i)] =
  map f [seq nth (VNull, VNull) cl.2 i.-1 | cl <- l & is_setting tr p d cl.1 && (i <= size cl.2)%N].
Proof.
move=> ht hi hf; elim: l => //= -[c ms] l IH; rewrite /logged_rows /= filter_cat map_cat -/(logged_rows l) IH one_row //=.
by case: ifP => //= /andP[_ h]; rewrite hf.
Qed.
Lemma cell_rmse t c ms i : tcols t = exp_cols -> (0 < i)%N -> (i <= size ms)%N ->
  cell t (nth [::] (rows_of c ms) i.-1) "RMSE" = (nth (VNull, VNull) ms i.-1).1.
Proof. by move=> ht h0 hi; rewrite /rows_of rows_nth ?prednK // /cell ht. Qed.
Lemma cell_nll t c ms i : tcols t = exp_cols -> (0 < i)%N -> (i <= size ms)%N ->
  cell t (nth [::] (rows_of c ms) i.-1) "NLL" = (nth (VNull, VNull) ms i.-1).2.
Proof. by move=> ht h0 hi; rewrite /rows_of rows_nth ?prednK // /cell ht. Qed.

Variable scan : table -> seq row.
Hypothesis scans : forall t, perm_eq (scan t) (trows t).
Lemma select_perm d name col cs t l : lookup d name = Some t -> all (mem (tcols t)) (col :: map fst cs) ->
  [seq cell t r col | r <- trows t & holds t r cs] = l ->
  exists2 vs, select scan d name col cs = Ok vs & perm_eq vs l.
Proof.
move=> hl hc <-; rewrite /select hl hc; eexists; first by [].
by apply: perm_map; apply: perm_filter.
Qed.
Lemma line_ok d name cs l : (exists2 vs, select scan d name "RMSE" cs = Ok vs & perm_eq vs (map fst l)) ->
  (exists2 vs, select scan d name "NLL" cs = Ok vs & perm_eq vs (map snd l)) -> numeric l ->
  exists2 o, line R scan d name cs = Ok o & describes l o.
Proof.
case=> v1 e1 h1 [v2 e2 h2]; rewrite /numeric all_predI => /andP[n1 n2].
have [s1 f1 g1] : exists2 s, stats v1 = Ok s & is_stat (map (@real_of R) (map fst l)) s by apply: stats_perm; rewrite ?all_map.
have [s2 f2 g2] : exists2 s, stats v2 = Ok s & is_stat (map (@real_of R) (map snd l)) s by apply: stats_perm; rewrite ?all_map.
exists (s1, s2); first by rewrite /line e1 bindE e2 bindE f1 bindE f2 bindE.
by split; rewrite /= map_comp.
Qed.
Lemma line_null d name cs (l : seq (val * val)) v : select scan d name "RMSE" cs = Ok v ->
  perm_eq v (map fst l) -> all (fun m => num_or_null m.1) l -> VNull \in map fst l ->
  (exists vs, select scan d name "NLL" cs = Ok vs) -> line R scan d name cs = Err TypeErr.
Proof.
move=> e1 h1 h2 h3 [v2 e2]; rewrite /line e1 bindE e2 bindE (stats_null h1) ?bindE //; by rewrite all_map.
Qed.
Lemma lines_ok A d name (f : A -> cond) (g : A -> seq (val * val)) (es : seq A) :
  (forall e, List.In e es -> exists2 o, line R scan d name (f e) = Ok o & describes (g e) o) ->
  exists2 out, lines R scan d name (map f es) = Ok out & List.Forall2 (fun e o => describes (g e) o) es out.
Proof.
elim: es => [|e es IH] h; first by exists [::].
have [o e1 h1] := h e (or_introl erefl).
have [out e2 h2] := IH (fun e he => h e (or_intror he)).
exists (o :: out); first by rewrite /= e1 bindE e2 bindE.
by constructor.
Qed.
End Stats.

Section Reports.
Variable R : rcfType.
Variable scan : table -> seq row.
Hypothesis scans : forall t, perm_eq (scan t) (trows t).
Variable W : Type.
Variable reseed : int -> W -> W.
Variable simulate : W -> W * res data.
Variable build : cfg -> data -> W -> W * res unit.
Variable sweep : W -> W * res unit.
Variable metrics : W -> W * res (val * val).
Variables (num_iter : nat) (dyn_name exp_name : string).
Variables (seeds : seq int) (trans : seq string) (powers damps : seq rat).
Notation run o := (main reseed simulate build sweep metrics num_iter dyn_name exp_name seeds trans powers damps o).
Notation all_runs := (all_runs reseed simulate build sweep metrics num_iter seeds trans powers damps).
Notation sample := (sample reseed simulate build sweep metrics num_iter seeds trans powers damps).
Lemma select_sample d w tr p dp i : lookup d exp_name = Some (Table exp_cols exp_key (logged_rows (all_runs w))) -> (0 < i)%N ->
  (exists2 vs, select scan d exp_name "RMSE" (ep_cond [::] p dp tr i) = Ok vs & perm_eq vs (map fst (sample w tr p dp i))) /\
  (exists2 vs, select scan d exp_name "NLL" (ep_cond [::] p dp tr i) = Ok vs & perm_eq vs (map snd (sample w tr p dp i))).
Proof.
move=> hl hi; split; apply: (select_perm scans hl) => //=.
- by apply: query_rows => // c ms; apply: cell_rmse.
- by apply: query_rows => // c ms; apply: cell_nll.
Qed.
Lemma report_ok d w ps dp tr : lookup d exp_name = Some (Table exp_cols exp_key (logged_rows (all_runs w))) ->
  let es := (1, 1, 1%N) :: [seq (p, dp, 50%N) | p <- ps] in
  (forall e, e \in es -> numeric (sample w tr e.1.1 e.1.2 e.2)) ->
  exists2 out, sweep_report R scan d exp_name [::] ps dp tr = Ok out
    & List.Forall2 (fun e o => describes (sample w tr e.1.1 e.1.2 e.2) o) es out.
Proof.
move=> hl es hn.
have -> : sweep_report R scan d exp_name [::] ps dp tr = lines R scan d exp_name [seq ep_cond [::] e.1.1 e.1.2 tr e.2 | e <- es].
  by rewrite /sweep_report /es /= -map_comp.
apply: (@lines_ok R scan _ d exp_name (fun e => ep_cond [::] e.1.1 e.1.2 tr e.2)) => e he.
have hi : (0 < e.2)%N by case: he => [<-|/List.in_map_iff[p [<- _]]].
have [h1 h2] := select_sample tr e.1.1 e.1.2 hl hi.
apply: line_ok h1 h2 _; apply: hn.
elim: (es) he => //= x l IH [->|/IH h]; rewrite inE ?eqxx // h orbT; by [].
Qed.
Lemma report_null d w ps dp tr : lookup d exp_name = Some (Table exp_cols exp_key (logged_rows (all_runs w))) ->
  all (fun m => num_or_null m.1) (sample w tr 1 1 1) -> VNull \in map fst (sample w tr 1 1 1) ->
  sweep_report R scan d exp_name [::] ps dp tr = Err TypeErr.
Proof.
move=> hl h1 h2; have [[v e hv] [v' e' _]] := select_sample tr 1 1 hl (ltn0Sn 0).
by rewrite /sweep_report /= (line_null R e hv h1 h2) ?bindE //; exists v'.
Qed.
Lemma runs_in cs xy w cl : cl \in runs build sweep metrics num_iter cs xy w -> cl.1 \in cs /\ (size cl.2 <= num_iter)%N.
Proof.
elim: cs w => //= c cs IH w; rewrite inE => /orP[/eqP->|/IH [h1 h2]] /=; last by rewrite inE h1 orbT.
rewrite mem_head; split=> //; rewrite /setting_logs; case: (build _ _ _) => w1 [_|e] //=.
by case: (logs_size sweep metrics num_iter w1).
Qed.
Lemma sample_unswept w tr p dp i : [|| tr \notin trans, p \notin powers, dp \notin damps | (num_iter < i)%N] -> sample w tr p dp i = [::].
Proof.
move=> h; apply/eqP; rewrite -[_ == _]negbK; apply/negP => hn.
have {hn} : has (fun cl => is_setting tr p dp cl.1 && (i <= size cl.2)%N) (all_runs w).
  by move: hn; rewrite -size_eq0 size_map size_filter -lt0n has_count.
case/hasP => -[c ms] /flattenP[l /mapP[sd _ ->]]; case: (simulate _) => w1 [xy|//] /runs_in [/= h1 h2] /andP[].
case: c h1 => s t' p' d' h1 /and3P[/eqP e1 /eqP e2 /eqP e3] h3; move: h1; rewrite /= in e1 e2 e3.
move=> h1; have /= e4 := product_seed h1; move: h1; rewrite e4 e1 e2 e3 in_product => /and3P[i1 i2 i3].
by move: h; rewrite i1 i2 i3 /= ltnNge (leq_trans h3 h2).
Qed.
End Reports.

(** ** rows of settings that are not swept do not appear, whatever happens *)
Section Absent.
Variable W : Type.
Variable reseed : int -> W -> W.
Variable simulate : W -> W * res data.
Variable build : cfg -> data -> W -> W * res unit.
Variable sweep : W -> W * res unit.
Variable metrics : W -> W * res (val * val).
Variables (num_iter : nat) (dyn_name exp_name : string).
Hypothesis names : dyn_name != exp_name.
Variables (trans : seq string) (powers damps : seq rat).
Variable Q : row -> bool.
Hypothesis good : forall seed c ms r, c \in product seed trans powers damps -> r \in rows_of c ms -> ~~ Q r.
Definition okt (t : table) : Prop := tcols t = exp_cols /\ forall r, r \in trows t -> ~~ Q r.
Definition okdb (d : db) : Prop := forall t, lookup d exp_name = Some t -> okt t.
Definition keep A (m : M W A) : Prop := forall s, okdb (s_durable s) -> okdb (s_working s) ->
  okdb (s_durable (m s).1) /\ ((m s).2 <> Died -> okdb (s_working (m s).1)).
Lemma keep_bind A B (m : M W A) (k : A -> M W B) : keep m -> (forall a, keep (k a)) -> keep (mbind m k).
Proof.
move=> hm hk s h1 h2; rewrite /mbind; case: (hm s h1 h2).
case: (m s) => s1 [a|e|] /= h3 h4; first by apply: hk => //; apply: h4.
  by split=> // _; apply: h4.
by split=> // /(_ erefl).
Qed.
Lemma keep_ret A (a : A) : keep (mret a). Proof. by []. Qed.
Lemma keep_raise A e : keep (@mraise W A e). Proof. by []. Qed.
Lemma keep_world A (f : W -> W * res A) : keep (mworld f).
Proof. by move=> s h1 h2; rewrite /mworld; case: (f _). Qed.
Lemma keep_tick : keep (@tick W).
Proof. by move=> s h1 h2; rewrite /tick; case: (s_fuel s) => [[|k]|]. Qed.
Lemma keep_insert c v : keep (@insert W dyn_name c v).
Proof.
apply: keep_bind; first exact: keep_tick.
move=> _ s h1 h2; rewrite /mbind /mdb; case: ifP => _ //; case: (lookup _ dyn_name) => [t|] //; case: ifP => _ //=.
by split=> // _ t'; rewrite lookup_update_ne //; apply: h2.
Qed.
Lemma keep_dyn t xy sd : keep (@insert_dynamics_from W dyn_name t xy sd).
Proof.
elim: xy t => [|[x y] xy IH] t /=; first exact: keep_ret.
by apply: keep_bind => [|_]; [apply: keep_insert | apply: IH].
Qed.
Lemma okdb_update d t rs : lookup d exp_name = Some t -> okdb d ->
  (forall r, r \in rs -> ~~ Q r) -> okdb (update d exp_name (insert_all t rs)).
Proof.
move=> hl hd hr t'; rewrite (lookup_update _ hl) => -[<-]; have [h1 h2] := hd _ hl.
split; first by rewrite insert_all_cols.
by move=> r /in_insert_all [/h2|/hr].
Qed.
Lemma keep_power seed c xy t s : c \in product seed trans powers damps ->
  okdb (s_durable s) -> okdb (s_working s) -> lookup (s_working s) exp_name = Some t ->
  let m := power_sweep build sweep metrics num_iter exp_name c xy in
  okdb (s_durable (m s).1) /\ ((m s).2 <> Died -> okdb (s_working (m s).1)).
Proof.
move=> hc h1 h2 hl m; rewrite /m /power_sweep /mbind /mworld.
case hb: (build c xy (s_w s)) => [w1 [[]|er]] //.
set s1 := St _ _ _ _ _.
have -> : ep_iterations sweep metrics num_iter true (exp_data c) exp_name s1 =
  ep_loop sweep metrics num_iter true exp_name
    (stdd (VText (c_trans c)) (seed_val (c_seed c)) 0 (VNum (c_power c)) (VNum (c_damp c)) (VNum 0) (VNum 0) (VNum 0) (VNum 0)) s1 by [].
have hl1 : lookup (s_working s1) exp_name = Some t by [].
have := loop_run sweep metrics num_iter (VText (c_trans c)) (seed_val (c_seed c)) 0 (VNum (c_power c)) (VNum (c_damp c)) (VNum 0) (VNum 0) (VNum 0) (VNum 0) hl1 (h2 _ hl).1.
have : forall r, r \in log_rows (VText (c_trans c)) (seed_val (c_seed c)) (VNum (c_power c)) (VNum (c_damp c)) 0
  (logs sweep metrics num_iter (s_w s1)).1 -> ~~ Q r by move=> r; apply: good hc.
rewrite /logged; move: (log_rows _ _ _ _ _ _) => rows hr; move: (ep_loop _ _ _ _ _ _ _) => r.
have hT j : forall r, r \in take j rows -> ~~ Q r by move=> r' /mem_take /hr.
case: ifP => _.
  case=> -> ->; split; last by move=> /(_ erefl).
  by case: (_./2) => [|j] //; apply: (okdb_update hl h2 (hT _)).
by move=> -> /=; split; [case: ifP => _ //|]; try (move=> _); apply: (okdb_update hl h2 hr).
Qed.
Lemma keep_setting o seed c xy : c \in product seed trans powers damps -> keep (one_setting build sweep metrics num_iter exp_name o c xy).
Proof.
move=> hc s h1 h2; rewrite /one_setting /exists_query /mbind /mdb.
case hl: (lookup (s_working s) exp_name) => [t|] //=.
case: ifP => _ //; have [h3 h4] := keep_power xy hc h1 h2 hl; rewrite /catch_linalg /=.
by case: (power_sweep _ _ _ _ _ _ _ _) h3 h4 => s1 [u|e|] /= h3 h4; [| case: e h4 => h4 |]; split=> //= _; apply: h4.
Qed.
Lemma keep_settings o seed cs xy : {subset cs <= product seed trans powers damps} -> keep (settings build sweep metrics num_iter exp_name o cs xy).
Proof.
elim: cs => [|c cs IH] h /=; first exact: keep_ret.
apply: keep_bind => [|_]; first by apply: keep_setting (h c (mem_head _ _)).
by apply: IH => x hx; apply: h; rewrite inE hx orbT.
Qed.
Lemma keep_create n c k : (n = exp_name -> c = exp_cols) -> keep (@create_table W n c k).
Proof.
move=> hn; apply: keep_bind; first exact: keep_tick.
move=> _ s h1 h2; case hl: (lookup _ _) => [t|] //=.
have h3 : okdb (rcons (s_working s) (n, Table c k [::])).
  move=> t; rewrite lookup_rcons; case hl2: (lookup _ exp_name) => [t'|]; first by move=> [<-]; apply: h2.
  by case: eqP => // e [<-]; split=> //; apply: hn.
by split=> //; case: ifP.
Qed.
Lemma keep_main o seeds : keep (main reseed simulate build sweep metrics num_iter dyn_name exp_name seeds trans powers damps o).
Proof.
apply: keep_bind => [|_]; first by apply: keep_create => e; move: names; rewrite e eqxx.
apply: keep_bind => [|_]; first exact: keep_create.
elim: seeds => [|sd sds IH] /=; first exact: keep_ret.
apply: keep_bind => [|_]; first exact: keep_world.
apply: keep_bind => [|xy]; first exact: keep_world.
apply: keep_bind => [|_]; first exact: keep_dyn.
case: xy => [|p xy]; first exact: keep_raise.
by apply: keep_bind => [|_]; [apply: (@keep_settings _ sd) | apply: IH].
Qed.
Lemma keep_attempts o seeds l d : okdb d ->
  okdb (attempts reseed simulate build sweep metrics num_iter dyn_name exp_name seeds trans powers damps o l d).
Proof. by elim: l d => //= -[w k] l IH d h; apply: IH; have [] := @keep_main o seeds (start w d k) h h. Qed.
End Absent.
