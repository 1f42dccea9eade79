(** C100 - C103: the program examples/six_d_rates_example.cpp. *)
From Coq Require Import ZArith Reals Lra Lia List Bool Ascii String Sorted Permutation.
From Flocq Require Import Core.Raux IEEE754.BinarySingleNaN.
From Verif Require Import Outcome FB_Model ActiveSets Geo Transform SixD Props_SixD Props_SixDArith S6_Real FloatTime Csv Props_Csv.
From mathcomp Require Import all_ssreflect all_algebra.
From Verif Require Import McRing LinAlg KF_Algebra KF_Model VS_Lemmas Props_VS FB_Alg KF_Filter RealField S6_Filter Props_S6Filter Example6D Props_ExampleTime.
Set Implicit Arguments.
Unset Strict Implicit.
Unset Printing Implicit Defensive.
Import GRing.Theory Num.Theory Order.TTheory.
Local Open Scope ring_scope.

(** ** Diagonal matrices *)
Lemma diag_ofE n (l : seq R) : diag_of n l = diag_mx (\row_(i < n) nth (0 : R) l i).
Proof.
apply/matrixP => i j; rewrite !mxE; case: eqP => [->|]; by rewrite ?mulr1n ?mulr0n.
Qed.
Lemma qf_diag n (d : 'rV[R]_n) (x : 'cV[R]_n) : qf (diag_mx d) x = \sum_i (d 0 i * (x i 0 * x i 0) : R).
Proof.
rewrite /qf /bf -mulmxA mul_diag_mx mxE; apply: eq_bigr => i _; rewrite !mxE.
by rewrite mulrCA.
Qed.
Lemma diag_psd n (l : seq R) : all (fun a : R => 0 <= a) l -> psd (diag_of n l).
Proof.
move=> h; rewrite diag_ofE; split; first exact: tr_diag_mx.
move=> x; rewrite qf_diag; apply: sumr_ge0 => i _; rewrite mxE; apply: mulr_ge0; last exact: sqr_ge0.
case: (ltnP i (size l)) => hi; last by rewrite nth_default.
by apply: (allP h); apply: mem_nth.
Qed.
Lemma diag_pd n (l : seq R) : size l = n -> all (fun a : R => 0 < a) l -> pd (diag_of n l).
Proof.
move=> hs h; have pos (i : 'I_n) : 0 < nth (0 : R) l i by apply: (allP h); apply: mem_nth; rewrite hs.
rewrite diag_ofE; split; first exact: tr_diag_mx.
move=> x hx; rewrite qf_diag.
have [i hi] : exists i, x i 0 != 0.
  by case/boolP: [exists i, x i 0 != 0] => [/existsP // | /existsPn h0]; case/negP: hx; apply/eqP/colP => i; rewrite mxE; apply/eqP; have := h0 i; rewrite negbK.
rewrite (bigD1 i) //=; apply: ltr_paddr.
  by apply: sumr_ge0 => j _; rewrite mxE; apply: mulr_ge0; [apply: ltW | exact: sqr_ge0].
by rewrite mxE; apply: mulr_gt0 => //; rewrite lt_neqAle sqr_ge0 andbT eq_sym mulf_neq0.
Qed.
Lemma dec_pos m k : Z.lt 0 m -> (0 : R) < dec m k.
Proof.
move=> h; apply/RltP; rewrite /dec; apply: Rdiv_lt_0_compat; apply: IZR_lt => //.
by apply: Z.pow_pos_nonneg => //; apply: Nat2Z.is_nonneg.
Qed.
Lemma ex_Rp_psd : psd ex_Rp.
Proof. by apply: diag_psd; rewrite /= !ltW ?dec_pos. Qed.
Lemma ex_cov_odom_pd : pd ex_cov_odom.
Proof. by apply: diag_pd => //; rewrite /= !dec_pos. Qed.
Lemma ex_cov_imu_pd : pd ex_cov_imu.
Proof. by apply: diag_pd => //; rewrite /= !dec_pos. Qed.
Lemma ex_cov_psd : psd ex_cov.
Proof. by apply: diag_psd; rewrite /= !ltW ?dec_pos. Qed.

(** ** The estimate: nothing about gravity and the biases ever changes *)
Definition est_ok (x : 'cV[R]_18) (P : 'M[R]_18) : Prop :=
  [/\ forall i : 'I_18, (9 <= i)%N -> x i 0 = ex_x i 0, psd P
    & forall i j : 'I_18, (9 <= i)%N || (9 <= j)%N -> P i j = ex_cov i j].

Definition ex_act : seq 'I_18 := to_idx 18 (a_active (s6_set (so_m ex_sys))).
Lemma ex_act_mem (i : 'I_18) : (i \in ex_act) = (i < 9)%N.
Proof. by rewrite mem_pmap_sub /=; case: i => -[|[|[|[|[|[|[|[|[|i]]]]]]]]] h //=; apply/idP; rewrite !inE. Qed.
Lemma ex_act_uniq : uniq ex_act.
Proof. by apply: pmap_sub_uniq. Qed.
Lemma ex_inactive (i : 'I_18) : inactive ex_act i <-> (9 <= i)%N.
Proof.
rewrite /inactive ex_act_mem -leqNgt; split=> [[]//|h]; split => //.
have : (ord0 : 'I_18) \in ex_act by rewrite ex_act_mem.
by case: ex_act.
Qed.
Lemma est_uncorr x P : est_ok x P -> uncorrelated ex_act P.
Proof.
move=> [_ _ h] a b ha /ex_inactive hb.
have ne : a != b by apply/eqP => e; apply: ha; rewrite e; apply/ex_inactive.
by rewrite !h ?hb ?orbT // !mxE [b == a]eq_sym (negbTE ne).
Qed.
Lemma ex_est0 : est_ok ex_x ex_cov.
Proof. by split=> //; exact: ex_cov_psd. Qed.

Definition sys_inv (o : S6Obj) : Prop :=
  [/\ s6_set (so_m o) = s6_set (so_m ex_sys), so_Rp o = ex_Rp, so_is o = Some isStationarySystem & so_mk o = Some ex_make].
Definition meas_inv k (q0 q : M6Obj k) : Prop :=
  [/\ mo_m q = mo_m q0, mo_set q = mo_set q0, mo_is q = mo_is q0 & mo_mk q = Some ex_make].

Lemma make_ok x P : est_ok x P -> est_ok (ex_make x P).1 (ex_make x P).2.
Proof.
move=> [h1 h2 h3]; split=> // i hi; rewrite -h1 // /ex_make /= mxE.
rewrite !put_seg_other ?/s6_VPHI ?/s6_AX ?/s6_VX; try (by move: hi => /ssrnat.leP; lia).
by rewrite /of_vec valK.
Qed.
Lemma of_vec_at n (x : 'cV[R]_n) (i : 'I_n) : of_vec x i = x i 0.
Proof. by rewrite /of_vec valK. Qed.
Lemma ex_std x P : est_ok x P -> seg (of_vec x) s6_GX = mkV 0 0 g_std.
Proof.
move=> [h _ _].
have e (i : 'I_18) : (9 <= i)%N -> of_vec x i = of_vec ex_x i by move=> hi; rewrite !of_vec_at h.
have -> : seg (of_vec x) s6_GX = seg (of_vec ex_x) s6_GX.
  by rewrite /seg (e (@Ordinal 18 9 isT)) // (e (@Ordinal 18 10 isT)) // (e (@Ordinal 18 11 isT)).
by rewrite seg_to_vec // /seg /put /= /dec /g_std; congr (mkV _ _ _); rewrite /=; lra.
Qed.

Lemma predict_est (x : 'cV[R]_18) (i : 'I_18) (dt : R) : (9 <= i)%N ->
  s6_predict (usage_of (s6_set (so_m ex_sys))) (of_vec x) dt i = x i 0.
Proof.
move=> hi; rewrite -of_vec_at.
case: (leqP 12 i) => h12; first by apply: predict_bias; move: h12 => /ssrnat.leP; lia.
have : (i = 9 :> nat \/ i = 10 :> nat \/ i = 11 :> nat)%N by move: hi h12 => /ssrnat.leP a /ssrnat.ltP b; lia.
by case=> [->|[->|->]].
Qed.
Lemma ctl_step (sy : S6Obj) x P (data : V ex_env) (dt : FTime) : sys_inv sy -> est_ok x P ->
  exists sy' x' P', control_update (E := ex_env) (sy : fa_sys ex_alg) (dv x) (dm P) data (FB_Model.vzero (e := ex_env) 0) (s_Rc (e := ex_env) (sy : fa_sys ex_alg)) dt
      = Ok ((sy' : fa_sys ex_alg), dv (R := R_realFieldType) x', dm (R := R_realFieldType) P')
    /\ sys_inv sy' /\ est_ok x' P'.
Proof.
move=> hs he; have [s1 s2 s3 s4] := hs.
rewrite /control_update /= s3 vec_of_dv /=.
case: (isStationarySystem x data) => /=.
  rewrite mat_of_dm /= s4.
  by exists sy, (ex_make x P).1, (ex_make x P).2; do 2 split => //; apply: make_ok.
rewrite mat_of_dm /= mat_of_dm /= vec_of_dv /=.
pose o := s6_setRc sy (so_Rc sy).
have ho : sys_inv o by [].
case e: (ekfvs_predict (S := six_d_sys secs) o x P 0 dt) => [[[o1 x1] P1]|u] //.
exists o1, x1, P1; split; first by move: e => /= [<- <- <-].
have [eo ex] : o1 = mkS6Obj (s6_update (so_m o) (of_vec x) (secs dt)) (so_Rp o) (so_Rc o) (so_is o) (so_mk o)
    /\ x1 = to_vec 18 (s6_predict (usage_of (s6_set (so_m o))) (of_vec x) (secs dt)).
  by move: e => [<- <- _].
have act1 : sm_act (s := six_d_base secs) o1 = ex_act by rewrite eo /= s1.
have h1 : sys_inv o1 by rewrite eo.
split => //; have [k1 k2 k3] := he.
have ua : uniq (sm_act (s := six_d_base secs) o1) by rewrite act1; exact: ex_act_uniq.
have pR : psd (sm_Rp (s := six_d_base secs) o1) by have [_ a _ _] := h1; rewrite /= a; exact: ex_Rp_psd.
have pRc : psd (sm_Rc (s := six_d_base secs) o1).
  by split=> [|y]; [apply/matrixP => -[] | rewrite /qf /bf !mxE big_ord0].
have un : uncorrelated (sm_act (s := six_d_base secs) o1) P by rewrite act1; exact: est_uncorr he.
have [pP _] := C47_ekfvs_predict_partial e ua pR pRc k2 un.
split => //.
  by move=> i hi; rewrite ex mxE s1 predict_est // k1.
move=> i j hij; rewrite -k3 //; apply: (C46_ekfvs_predict_cov_partial e); rewrite act1.
by case/orP: hij => h; [left|right]; apply/ex_inactive.
Qed.

(** ** A measurement *)
Lemma add_keep (x d : vecn) i : std_gravity x -> (forall j, (9 <= j)%coq_nat -> d j = 0 :> R) -> (9 <= i)%coq_nat -> s6_addState x d i = x i.
Proof.
move=> hx hd hi; rewrite /s6_addState.
have e j : (9 <= j)%coq_nat -> Rplus (x j) (d j) = x j by move=> hj; rewrite hd //; exact: Rplus_0_r.
rewrite -[RHS](renorm_id x hx i) /renorm.
have -> : seg (fun k => Rplus (x k) (d k)) s6_GX = seg x s6_GX by rewrite /seg !e //; rewrite /s6_GX; lia.
by rewrite /put_seg /put; do 3 case: (Nat.eqb _ _) => //; apply: e.
Qed.
Lemma norm_up a b : a = R0 -> b = R0 -> norm (mkV a b g_std) = g_std.
Proof. by move=> -> ->; rewrite -[RHS](sqrt_square _ (Rlt_le _ _ gstd_pos)) /norm /norm2 /Geo.dot /= !Rmult_0_l !Rplus_0_l. Qed.
Lemma ex_gravity x P : est_ok x P -> std_gravity (of_vec x).
Proof. by move=> h; rewrite std_gravity_def (ex_std h); apply: norm_up. Qed.

Lemma meas_step k (sy : S6Obj) (q0 q : M6Obj k) (Q : 'M[R]_k) x P (z : 'cV[R]_k) (dt : FTime) :
  uniq (to_idx k (a_active (mo_set q0))) -> pd Q ->
  sys_inv sy -> meas_inv q0 q -> est_ok x P ->
  exists q' x' P', meas_update (E := ex_env) (sy : fa_sys ex_alg) (dmeas (F := ex_alg) (k := k) q) (dv x) (dm P) (dv z) (dm (R := R_realFieldType) Q) dt
      = Ok ((sy : fa_sys ex_alg), dmeas (F := ex_alg) (k := k) q', dv (R := R_realFieldType) x', dm (R := R_realFieldType) P')
    /\ meas_inv q0 q' /\ est_ok x' P'.
Proof.
move=> um pQ hs hq he; have [m1 m2 m3 m4] := hq.
pose q1 : M6Obj k := mkM6Obj (mo_m q) (mo_z q) Q (mo_set q) (mo_is q) (mo_mk q).
have hq1 : meas_inv q0 q1 by [].
have up : mm_upd (m := six_d_meas FTime k) q1 x dt = Ok (mkM6Obj (mo_m q1) (six_d_h k (mo_m q1) (of_vec x)) (mo_cov q1) (mo_set q1) (mo_is q1) (mo_mk q1)) by [].
set q2 := (X in _ = Ok X) in up.
have eact : sm_act (s := six_d_base secs) sy = ex_act by have [h _ _ _] := hs; rewrite /= h.
have ua : uniq (sm_act (s := six_d_base secs) sy) by rewrite eact; exact: ex_act_uniq.
have um2 : uniq (mm_act (m := six_d_meas FTime k) q2) by rewrite /= m2.
have [k1 k2 k3] := he.
have [x' [P' [e _]]] := C48_ekfvs_correct_psd (S := six_d_sys secs) z up ua um2 (get2_psd _ k2) (pQ : pd (mm_cov (m := six_d_meas FTime k) q2)).
have un : uncorrelated (sm_act (s := six_d_base secs) sy) P by rewrite eact; exact: est_uncorr he.
have [pP _] := C47_ekfvs_correct_partial e ua um2 pQ k2 un.
have ina (i : 'I_18) : (9 <= i)%N -> inactive (sm_act (s := six_d_base secs) sy) i by rewrite eact => /ex_inactive.
have he' : est_ok x' P'.
  move: e; rewrite /ekfvs_correct up /= /ekfvs_correct_with; case: (inverse _) => [inv|//] /= [ex eP]; split => //.
    move=> i hi; rewrite -ex mxE add_keep ?of_vec_at ?k1 //; first exact: ex_gravity he; last by apply/ssrnat.leP.
    move=> j /ssrnat.leP hj; rewrite /of_vec; case: insubP => //= i' _ ei.
    rewrite put1_out ?mxE //; apply: inactive_out; by apply: ina; rewrite ei.
  move=> i j hij; rewrite -eP put2_out ?k3 //.
  case/orP: hij => h; apply/orP; [left|right]; apply/forallP; apply: inactive_out; exact: ina.
have run b : (let* st := Ok b in if ~~ st then my_correct (e := ex_env) (sy : fa_sys ex_alg) (dmeas (F := ex_alg) (k := k) q1) (dv x) (dm P) (dv z) dt
   else let* m2 := m_proc (e := ex_env) (dmeas (F := ex_alg) (k := k) q1) (dv x) (dv z) in
     let* (x1, P1) := m_make m2 (dv x) (dm P) in Ok ((sy : fa_sys ex_alg), m2, x1, P1))
   = if b then Ok ((sy : fa_sys ex_alg), dmeas (F := ex_alg) (k := k) q1, dv (R := R_realFieldType) (ex_make x P).1, dm (R := R_realFieldType) (ex_make x P).2)
     else Ok ((sy : fa_sys ex_alg), dmeas (F := ex_alg) (k := k) q2, dv (R := R_realFieldType) x', dm (R := R_realFieldType) P').
  case: b => /=.
    by rewrite !vec_of_dv /= ?vec_of_dv mat_of_dm /= m4.
  rewrite vec_of_dv /= mat_of_dm /= vec_of_dv /=.
  by rewrite -/q1; move: e => /= ->.
have st : exists b, (if m_check (e := ex_env) (dmeas (F := ex_alg) (k := k) q1) then m_isStat (e := ex_env) (dmeas (F := ex_alg) (k := k) q1) (dv x) (dv z) else Ok false) = Ok b.
  by rewrite /=; case: (mo_is q) => [f|]; [rewrite !vec_of_dv /=; eexists|exists false].
have sc : m_setCov (e := ex_env) (dmeas (F := ex_alg) (k := k) q) (dm Q) = Ok (dmeas (F := ex_alg) (k := k) q1) by rewrite /= mat_of_dm.
have [b mu] : exists b : bool, meas_update (E := ex_env) (sy : fa_sys ex_alg) (dmeas (F := ex_alg) (k := k) q) (dv x) (dm P) (dv z) (dm (R := R_realFieldType) Q) dt
   = if b then Ok ((sy : fa_sys ex_alg), dmeas (F := ex_alg) (k := k) q1, dv (R := R_realFieldType) (ex_make x P).1, dm (R := R_realFieldType) (ex_make x P).2)
     else Ok ((sy : fa_sys ex_alg), dmeas (F := ex_alg) (k := k) q2, dv (R := R_realFieldType) x', dm (R := R_realFieldType) P').
  by case: st => b eb; exists b; rewrite -run -eb /meas_update sc.
rewrite mu; case: b {mu}.
  by exists q1, (ex_make x P).1, (ex_make x P).2; split => //; split => //; apply: make_ok.
by exists q2, x', P'.
Qed.

(** ** One call of correct *)
Definition core_inv (c : Core ex_env) : Prop := exists (q0 : M6Obj 4) (q1 : M6Obj 6) (x : 'cV[R]_18) (P : 'M[R]_18),
  [/\ c_pc c = vempty, sys_inv (c_sys c), c_meas c = [:: dmeas (F := ex_alg) (k := 4) q0; dmeas (F := ex_alg) (k := 6) q1]
    & f_x (c_cur c) = dv (R := R_realFieldType) x /\ f_cov (c_cur c) = dm (R := R_realFieldType) P]
  /\ [/\ meas_inv ex_odom q0, meas_inv ex_imu q1 & est_ok x P].
Lemma ctl_ok (c : Core ex_env) (i : FInput ex_env) : core_inv c -> i_data i = vempty ->
  exists c', applyControlInput c i = Ok c' /\ core_inv c'.
Proof.
move=> [q0 [q1 [x [P [[e1 hs e3 [e4 e5]] [h0 h1 he]]]]]] ei.
have [sy' [x' [P' [eu [hs' he']]]]] := ctl_step (vempty (e := ex_env)) (tsub (i_ts i) (f_ts (c_cur c))) hs he.
exists (set_est (set_sys c sy') (dv (R := R_realFieldType) x') (dm (R := R_realFieldType) P')); split.
  rewrite /applyControlInput /choose_control ei e1; have -> : Nat.ltb 0 (vsize (e := ex_env) vempty) = false by []; rewrite e4 e5 eu; reflexivity.
by exists q0, q1, x', P'.
Qed.
Lemma advance_ok (c : Core ex_env) (i : FInput ex_env) dt : core_inv c -> exists c', advance_if_needed c i dt = Ok c' /\ core_inv c'.
Proof.
move=> h; rewrite /advance_if_needed; case: tlt; last by exists c.
have ep : c_pc c = vempty by case: h => [? [? [? [? [[]]]]]].
have [c1 [-> h1]] := @ctl_ok c (mkInput (c_pc c) (c_pcc c) (i_ts i) true None) h ep.
by exists (set_ts c1 (tadd (f_ts (c_cur c1)) dt)).
Qed.
Lemma odom_uniq : uniq (to_idx 4 (a_active (mo_set ex_odom))).
Proof. by apply: pmap_sub_uniq. Qed.
Lemma imu_uniq : uniq (to_idx 6 (a_active (mo_set ex_imu))).
Proof. by apply: pmap_sub_uniq. Qed.
Lemma odom_ok (c : Core ex_env) (z : 'cV[R]_4) (t : FTime) : core_inv c ->
  exists c', input_core c (mkInput (dv z : V ex_env) (dm (R := R_realFieldType) ex_cov_odom : Mx ex_env) t false (Some 0%N)) = Ok c' /\ core_inv c'.
Proof.
move=> h; rewrite /input_core /applyMeasurementInput; cbn [i_ctl i_ts i_model i_data i_cov].
have [c1 [-> [q0 [q1 [x [P [[e1 hs e3 [e4 e5]] [h0 h1 he]]]]]]]] := advance_ok (mkInput (dv z : V ex_env) (dm (R := R_realFieldType) ex_cov_odom : Mx ex_env) t false (Some 0%N)) (tsub t (f_ts (c_cur c))) h.
cbn [Outcome.obind]; rewrite e3; cbn [nth_error].
have [q' [x' [P' [eu [hq he']]]]] := meas_step z (tsub t (f_ts (c_cur c))) odom_uniq ex_cov_odom_pd hs h0 he.
rewrite e4 e5 eu; eexists; split; first reflexivity.
by exists q', q1, x', P'.
Qed.
Lemma imu_ok (c : Core ex_env) (z : 'cV[R]_6) (t : FTime) : core_inv c ->
  exists c', input_core c (mkInput (dv z : V ex_env) (dm (R := R_realFieldType) ex_cov_imu : Mx ex_env) t false (Some 1%N)) = Ok c' /\ core_inv c'.
Proof.
move=> h; rewrite /input_core /applyMeasurementInput; cbn [i_ctl i_ts i_model i_data i_cov].
have [c1 [-> [q0 [q1 [x [P [[e1 hs e3 [e4 e5]] [h0 h1 he]]]]]]]] := advance_ok (mkInput (dv z : V ex_env) (dm (R := R_realFieldType) ex_cov_imu : Mx ex_env) t false (Some 1%N)) (tsub t (f_ts (c_cur c))) h.
cbn [Outcome.obind]; rewrite e3; cbn [nth_error].
have [q' [x' [P' [eu [hq he']]]]] := meas_step z (tsub t (f_ts (c_cur c))) imu_uniq ex_cov_imu_pd hs h1 he.
rewrite e4 e5 eu; eexists; split; first reflexivity.
by exists q0, q', x', P'.
Qed.
Definition arity (m : MeasTypes) : nat := match m with ODOM => 4 | IMU => 6 end.
Lemma ex_zE n (l : list f64) : size l = n -> exists z : 'cV[R]_n, ex_z l = dv z.
Proof. by move=> <-; eexists. Qed.

Definition ex_inv (s : St ex_env) : Prop := par s = default_params /\ core_inv (core s).
Lemma correct_ok L (s : St ex_env) (m : ExMeas) : ex_inv s -> size (em_z m) = arity (em_type m) ->
  exists s', ex_correct L s m = Ok s' /\ ex_inv s' /\ (tle (t := FTime) tzero (fsub64 (em_t m) (getStateTime s)) = false -> s' = s).
Proof.
case: m => t z ty [hp hc] /= hz.
have main m n z' Q (i := mkInput (dv (R := R_realFieldType) (d := n) z' : V ex_env) Q t false (Some m)) : (exists c', input_core (core s) i = Ok c' /\ core_inv c') ->
    exists s', correct L s (i_data i) (i_cov i) (i_ts i) (i_model i) = Ok s' /\ ex_inv s' /\ (tle (t := FTime) tzero (fsub64 t (getStateTime s)) = false -> s' = s).
  move=> [c' [ec hc']]; rewrite /correct hp; cbn [negb p_rewind p_past default_params orb].
  case: ifP => hl; last by exists s.
  exists (mkSt (par s) c' (hist s) (cq s) (mq s)); split; last by split => // hf; move: hl; rewrite [tle _ _]hf.
  by rewrite /applyInput hp; cbn [p_rewind default_params]; rewrite ec; cbn [Outcome.obind]; rewrite /pruneHistory; cbn [par p_rewind default_params negb].
rewrite /ex_correct; case: ty hz => /= hz; have [z' ez] := ex_zE hz; rewrite ez.
  by apply: main; apply: odom_ok.
by apply: main; apply: imu_ok.
Qed.
