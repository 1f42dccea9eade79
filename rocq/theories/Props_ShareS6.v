(** C108 for the library's own models: filters that share a SixDRates, SixDRatesImu and SixDRatesOdom
    object do not disturb each other (as long as nobody calls the objects). *)
From Coq Require Import Reals List FunctionalExtensionality.
From mathcomp Require Import all_ssreflect all_algebra.
From Verif Require Import Outcome FB_Model FB_Spec FB_Sim ActiveSets Geo SixD KF_Model FB_Alg KF_Filter RealField S6_Filter Props_Share FB_AlgForget.
Set Implicit Arguments.
Unset Strict Implicit.
Unset Printing Implicit Defensive.
Import GRing.Theory.
Local Open Scope ring_scope.
Delimit Scope R_scope with coqR.

(** the Jacobians are overwritten by the next update: [op] writes the entries in [W], whatever they were *)
Definition writes (W : nat -> nat -> bool) (op : matn -> matn) : Prop :=
  exists v : matn, forall m i j, op m i j = if W i j then v i j else m i j.
Definition at_ (i j : nat) : nat -> nat -> bool := fun a b => Nat.eqb a i && Nat.eqb b j.
Definition or_ (W W' : nat -> nat -> bool) : nat -> nat -> bool := fun a b => W' a b || W a b.
Lemma writes_mput i j v : writes (at_ i j) (fun m => mput m i j v).
Proof. by exists (fun _ _ => v). Qed.
Lemma writes_comp W W' op op' : writes W op -> writes W' op' -> writes (or_ W W') (fun m => op' (op m)).
Proof.
move=> [v h] [v' h']; exists (fun i j => if W' i j then v' i j else v i j) => m i j.
by rewrite h' h /or_; case: (W' i j).
Qed.
Lemma writes_twice W op op' m : writes W op -> writes W op' -> op' (op m) = op' m.
Proof.
move=> [v h] [v' h']; apply: functional_extensionality => i; apply: functional_extensionality => j.
by rewrite !h'; case e: (W i j) => //; rewrite h e.
Qed.
Definition row_ i j := or_ (or_ (at_ i j) (at_ i (j + 1)%coq_nat)) (at_ i (j + 2)%coq_nat).
Lemma writes_row i j v : writes (row_ i j) (fun m => mput_row m i j v).
Proof. by apply: (writes_comp (op' := fun m => mput m i (j + 2)%coq_nat (vz v))); [apply: (writes_comp (op' := fun m => mput m i (j + 1)%coq_nat (vy v)))|]; apply: writes_mput. Qed.
Definition block_ i j := or_ (or_ (row_ i j) (row_ (i + 1)%coq_nat j)) (row_ (i + 2)%coq_nat j).
Lemma writes_block i j b : writes (block_ i j) (fun m => put_block m i j b).
Proof. by apply: (writes_comp (op' := fun m => mput_row m (i + 2)%coq_nat j (r2 b))); [apply: (writes_comp (op' := fun m => mput_row m (i + 1)%coq_nat j (r1 b)))|]; apply: writes_row. Qed.
Definition diag_ i j := or_ (or_ (at_ i j) (at_ (i + 1)%coq_nat (j + 1)%coq_nat)) (at_ (i + 2)%coq_nat (j + 2)%coq_nat).
Definition diag3 (P : matn) r c v := mput (mput (mput P r c v) (r + 1) (c + 1) v) (r + 2) (c + 2) v.
Lemma writes_diag i j v : writes (diag_ i j) (fun m => diag3 m i j v).
Proof. by apply: (writes_comp (op' := fun m => mput m (i + 2)%coq_nat (j + 2)%coq_nat v)); [apply: (writes_comp (op' := fun m => mput m (i + 1)%coq_nat (j + 1)%coq_nat v))|]; apply: writes_mput. Qed.

Definition W_G := or_ (or_ (diag_ s6_VX s6_AX) (block_ s6_GX s6_VPHI)) (block_ s6_GX s6_GX).
Lemma writes_G x dt : writes W_G (fun G => s6_jacobian G x dt).
Proof.
rewrite /s6_jacobian; set b := madd (madd _ _) (mscale _ (skew (qvec _))); set a := madd (mscale _ (skew _)) (mscale _ (msub _ _)).
change (writes W_G (fun G => put_block (put_block (diag3 G s6_VX s6_AX dt) s6_GX s6_VPHI a) s6_GX s6_GX b)).
apply: (writes_comp (op' := fun G => put_block G s6_GX s6_GX b)); last exact: writes_block.
apply: (writes_comp (op' := fun G => put_block G s6_GX s6_VPHI a)); last exact: writes_block.
exact: writes_diag.
Qed.
Definition W_P := or_ (or_ (or_ (or_ (or_ (or_ (diag_ s6_VX 0) (diag_ s6_VX 3)) (diag_ s6_AX 0)) (diag_ s6_AX 3)) (diag_ s6_VPHI 6)) (diag_ s6_VPHI 9)) (block_ s6_GX 12).
Lemma writes_P x dt : writes W_P (fun P => s6_noise_jacobian P x dt).
Proof.
rewrite /s6_noise_jacobian; set b := mscale _ (msub _ _); set d := (1 / 2 * (dt * dt))%coqR.
change (writes W_P (fun P => put_block (diag3 (diag3 (diag3 (diag3 (diag3 (diag3 P s6_VX 0 d) s6_VX 3 d) s6_AX 0 dt) s6_AX 3 dt) s6_VPHI 6 dt) s6_VPHI 9 dt) s6_GX 12 b)).
apply: (writes_comp (op' := fun P => put_block P s6_GX 12 b)); last exact: writes_block.
apply: (writes_comp (op' := fun P => diag3 P s6_VPHI 9 dt)); last exact: writes_diag.
apply: (writes_comp (op' := fun P => diag3 P s6_VPHI 6 dt)); last exact: writes_diag.
apply: (writes_comp (op' := fun P => diag3 P s6_AX 3 dt)); last exact: writes_diag.
apply: (writes_comp (op' := fun P => diag3 P s6_AX 0 dt)); last exact: writes_diag.
apply: (writes_comp (op' := fun P => diag3 P s6_VX 3 d)); last exact: writes_diag.
exact: writes_diag.
Qed.
(** what an update makes of an object does not depend on the updates before it *)
Lemma jacobian_twice G x dt x' dt' : s6_jacobian (s6_jacobian G x dt) x' dt' = s6_jacobian G x' dt'.
Proof. exact (@writes_twice W_G (fun G => s6_jacobian G x dt) (fun G => s6_jacobian G x' dt') G (writes_G x dt) (writes_G x' dt')). Qed.
Lemma noise_twice P x dt x' dt' : s6_noise_jacobian (s6_noise_jacobian P x dt) x' dt' = s6_noise_jacobian P x' dt'.
Proof. exact (@writes_twice W_P (fun G => s6_noise_jacobian G x dt) (fun G => s6_noise_jacobian G x' dt') P (writes_P x dt) (writes_P x' dt')). Qed.
Lemma update_twice m x dt x' dt' : s6_update (s6_update m x dt) x' dt' = s6_update m x' dt'.
Proof.
rewrite /s6_update; cbn [s6_cj s6_uc s6_set s6_G s6_P].
destruct (s6_cj m), (s6_uc m); rewrite ?jacobian_twice ?noise_twice; reflexivity.
Qed.
Local Opaque s6_update.
Lemma update_flags m x dt : [/\ s6_cj (s6_update m x dt) = s6_cj m, s6_uc (s6_update m x dt) = s6_uc m & s6_set (s6_update m x dt) = s6_set m].
Proof. Local Transparent s6_update. by split. Qed.
Local Opaque s6_update.

Section Six.
Context {TT : TimeOps} (secs : TT -> R).
Local Notation RF := R_realFieldType.

(** the states a SixDRates object goes through in updates *)
Definition s6_like (o0 o : S6Obj) : Prop :=
  [/\ so_Rp o = so_Rp o0, so_is o = so_is o0, so_mk o = so_mk o0, s6_set (so_m o) = s6_set (so_m o0)
    & forall x dt, s6_update (so_m o) x dt = s6_update (so_m o0) x dt].
Lemma s6_like_refl o : s6_like o o. Proof. by split. Qed.
Lemma s6_like_upd o0 o1 o2 x dt : s6_like o0 o1 -> s6_like o0 o2 ->
  mkS6Obj (s6_update (so_m o1) x dt) (so_Rp o1) (so_Rc o1) (so_is o1) (so_mk o1) =
  mkS6Obj (s6_update (so_m o2) x dt) (so_Rp o2) (so_Rc o2) (so_is o2) (so_mk o2).
Proof.
case=> a1 a2 a3 _ a5 [b1 b2 b3 _ b5]; rewrite a1 a2 a3 b1 b2 b3 a5 b5.
by rewrite (thinmx0 (so_Rc o1)) (thinmx0 (so_Rc o2)).
Qed.
Lemma s6_like_after o0 o x dt : s6_like o0 o -> s6_like o0 (mkS6Obj (s6_update (so_m o) x dt) (so_Rp o) (so_Rc o) (so_is o) (so_mk o)).
Proof.
case=> a1 a2 a3 a4 a5; split; cbn [so_m so_Rp so_Rc so_is so_mk]; rewrite ?a1 ?a2 ?a3; try reflexivity.
  by have [_ _ ->] := update_flags (so_m o) x dt.
by move=> x' dt'; rewrite update_twice.
Qed.
Lemma s6_like_setRc o0 o Rc : s6_like o0 o -> s6_like o0 (s6_setRc o Rc).
Proof. by case. Qed.

(** the states a SixDRatesImu or SixDRatesOdom object goes through: only the prediction and the
    covariance of the last measurement change *)
Definition m6_with k (q : M6Obj k) z C : M6Obj k := mkM6Obj (mo_m q) z C (mo_set q) (mo_is q) (mo_mk q).

Definition m6_same k (q1 q2 : M6Obj k) : Prop :=
  mo_m q1 = mo_m q2 /\ mo_cov q1 = mo_cov q2 /\ mo_set q1 = mo_set q2 /\ mo_is q1 = mo_is q2 /\ mo_mk q1 = mo_mk q2.

Section Ekf.
Local Notation F := (ekf_alg (six_d_ops secs) (six_d_mops TT)).
Definition ekf_like (ms : list (DMeas F)) (i : nat) (q : DMeas F) : Prop :=
  exists q0 z C, List.nth_error ms i = Some q0 /\ q = dmeas (F := F) (k := projT1 q0) (m6_with (projT2 q0) z C).
Definition ekf_same (ms : list (DMeas F)) (i : nat) k (q1 q2 : fa_meas F k) : Prop :=
  [/\ ekf_like ms i (dmeas q1), ekf_like ms i (dmeas q2) & m6_same q1 q2].

Lemma dmeas_inj k : injective (@dmeas RF TT 18 0 F k).
Proof. by move=> a b e; apply: (Eqdep_dec.inj_pair2_eq_dec _ PeanoNat.Nat.eq_dec _ _ _ _ e). Qed.
Lemma ekf_like_inv ms i k (q : fa_meas F k) : ekf_like ms i (dmeas q) ->
  exists a : M6Obj k, List.nth_error ms i = Some (dmeas (F := F) (k := k) a) /\ q = m6_with a (mo_z q) (mo_cov q).
Proof.
case=> [[k0 a] [z [C [e1 e2]]]]; have ek : k = k0 := f_equal (@projT1 _ _) e2.
by subst k0; have -> := dmeas_inj e2; exists a.
Qed.
Lemma ekf_like_with ms i k (q : fa_meas F k) z C : ekf_like ms i (dmeas q) -> ekf_like ms i (dmeas (F := F) (k := k) (m6_with q z C)).
Proof. by move=> h; have [a [e1 e2]] := ekf_like_inv h; exists (dmeas (F := F) (k := k) a), z, C; split=> //; rewrite e2. Qed.

Lemma m6_same_upd ms i k (q1 q2 : fa_meas F k) (v : Meas6 -> vecn) : ekf_same ms i q1 q2 ->
  mkM6Obj (mo_m q1) (v (mo_m q1)) (mo_cov q1) (mo_set q1) (mo_is q1) (mo_mk q1) =
  mkM6Obj (mo_m q2) (v (mo_m q2)) (mo_cov q2) (mo_set q2) (mo_is q2) (mo_mk q2).
Proof. by case=> _ _ [-> [-> [-> [-> ->]]]]. Qed.
Lemma ekf_forget (sy : fa_sys F) (ms : list (DMeas F)) : AlgForget (F := F) (s6_like sy) (ekf_like ms) (ekf_same ms) 0.
Proof.
split.
- by move=> o _; exact: (thinmx0 (so_Rc o)).
- by move=> o h; exact: s6_like_setRc.
- by move=> o1 o2 [_ e1 _ _ _] [_ e2 _ _ _]; cbn [fa_check ekf_alg so_check six_d_ops]; rewrite e1 e2.
- by move=> o1 o2 x d [_ e1 _ _ _] [_ e2 _ _ _]; cbn [fa_isStat ekf_alg so_isStat six_d_ops]; rewrite e1 e2.
- by [].
- by move=> o1 o2 x P [_ _ e1 _ _] [_ _ e2 _ _]; cbn [fa_make ekf_alg so_make six_d_ops]; rewrite e1 e2.
- move=> o1 o2 x P u dt h1 h2; cbn [fa_predict ekf_alg]; rewrite /ekf_predict; cbn [sm_upd ns_base six_d_sys six_d_base s6_obj_upd].
  rewrite /s6_obj_upd (s6_like_upd (of_vec x) (secs dt) h1 h2); cbn [Outcome.obind orel].
  by have h := s6_like_after (of_vec x) (secs dt) h2; split.
- by move=> i q1 q2 [a [? [? [ea ->]]]] [b [? [? [eb ->]]]]; move: eb; rewrite ea; case=> e; subst b.
- move=> i k q1 q2 Q h1 h2; split.
  + exact: (ekf_like_with (mo_z q1) Q h1).
  + exact: (ekf_like_with (mo_z q2) Q h2).
  have [a [e1 ->]] := ekf_like_inv h1; have [b [e2 ->]] := ekf_like_inv h2.
  move: e2; rewrite e1 => /Some_inj /dmeas_inj <-; exact: (conj erefl (conj erefl (conj erefl (conj erefl erefl)))).
- by move=> i k q1 q2 [].
- by move=> i k q1 q2 [_ _ [_ [_ [_ [e _]]]]]; cbn [fa_mcheck ekf_alg mo_check six_d_mops m6_ops]; rewrite e.
- by move=> i k q1 q2 x z [_ _ [_ [_ [_ [e _]]]]]; cbn [fa_misStat ekf_alg mo_isStat six_d_mops m6_ops]; rewrite e.
- by [].
- by move=> i k q1 q2 x P [_ _ [_ [_ [_ [_ e]]]]]; cbn [fa_mmake ekf_alg mo_make six_d_mops m6_ops]; rewrite e.
- move=> i k o1 o2 q1 q2 x P z dt h1 h2 hq; have [l1 l2 _] := hq.
  cbn [fa_correct ekf_alg]; rewrite /ekf_correct; cbn [mm_upd nm_base six_d_meas m6_class m6_base six_d_h].
  rewrite (m6_same_upd (fun a => six_d_h k a (of_vec x)) hq); cbn [Outcome.obind]; set q' := mkM6Obj _ _ _ _ _ _.
  have lq : ekf_like ms i (dmeas (F := F) (k := k) q') by exact: ekf_like_with.
  case: (inverse _) => [K|//]; cbn [Outcome.obind orel fst snd].
  by split.
Qed.

Local Notation F' := (ekfvs_alg (six_d_ops secs) (six_d_mops TT)).
Lemma ekfvs_forget (sy : fa_sys F') (ms : list (DMeas F')) : AlgForget (F := F') (s6_like sy) (ekf_like ms) (ekf_same ms) 0.
Proof.
have H := ekf_forget sy ms; case: H => f1 f2 f3 f4 f5 f6 _ f8 f9 f10 f11 f12 f13 f14 _; split.
- exact: f1.
- exact: f2.
- exact: f3.
- exact: f4.
- exact: f5.
- exact: f6.
- move=> o1 o2 x P u dt h1 h2; cbn [fa_predict ekfvs_alg]; rewrite /ekfvs_predict; cbn [sm_upd ns_base six_d_sys six_d_base s6_obj_upd].
  rewrite /s6_obj_upd (s6_like_upd (of_vec x) (secs dt) h1 h2); cbn [Outcome.obind orel].
  by have h := s6_like_after (of_vec x) (secs dt) h2; split.
- exact: f8.
- exact: f9.
- exact: f10.
- exact: f11.
- exact: f12.
- exact: f13.
- exact: f14.
- move=> i k o1 o2 q1 q2 x P z dt h1 h2 hq; have [l1 l2 _] := hq.
  have [_ _ _ s1 _] := h1; have [_ _ _ s2 _] := h2.
  cbn [fa_correct ekfvs_alg]; rewrite /ekfvs_correct; cbn [mm_upd nm_base six_d_meas m6_class m6_base six_d_h].
  rewrite (m6_same_upd (fun a => six_d_h k a (of_vec x)) hq); cbn [Outcome.obind]; set q' := mkM6Obj _ _ _ _ _ _.
  have lq : ekf_like ms i (dmeas (F := F) (k := k) q') by exact: ekf_like_with.
  cbn [sm_act ns_base six_d_sys six_d_base]; rewrite s1 s2.
  set w1 := ekfvs_correct_with _ _ _ _ _ _ _; set w2 := ekfvs_correct_with _ _ _ _ _ _ _.
  have -> : w1 = w2 by [].
  case: w2 => [r|//]; cbn [Outcome.obind orel fst snd]; by split.
Qed.
End Ekf.

(** ** C108 for EKF and EKFVS on SixDRates, SixDRatesImu and SixDRatesOdom objects, whatever they are
    when the filters are made (flags, transforms, active states, stationary functions): two filters on
    the same objects, and copies of filters, answer as filters on objects of their own *)
Theorem C108_six_d_ekf_partial (L : Lib (alg_env (ekf_alg (six_d_ops secs) (six_d_mops TT)))) sy ms a b cs s1 s2 :
  same_lib L L -> (forall l i, List.In i (lib_sort L l) -> List.In i l) ->
  List.Forall no_object_call cs -> calls L cs (made sy ms a, made sy ms b) = Ok (s1, s2) ->
  exists s1' s2', alone L sy ms (fst (told cs a b)) = Ok s1' /\ alone L sy ms (snd (told cs a b)) = Ok s2'
    /\ same_answers s1 s1' /\ same_answers s2 s2'.
Proof.
move=> hL hs hc hr; refine (C108_forgetful_partial L _ _ _ (alg_forgetful (ekf_forget sy ms)) hL hs _ sy ms a b cs s1 s2 _ _ hc hr).
- by [].
- exact: s6_like_refl.
- by move=> k [K q] e; exists (existT _ K q), (mo_z q), (mo_cov q); split=> //; case: q e.
Qed.
Theorem C108_six_d_ekfvs_partial (L : Lib (alg_env (ekfvs_alg (six_d_ops secs) (six_d_mops TT)))) sy ms a b cs s1 s2 :
  same_lib L L -> (forall l i, List.In i (lib_sort L l) -> List.In i l) ->
  List.Forall no_object_call cs -> calls L cs (made sy ms a, made sy ms b) = Ok (s1, s2) ->
  exists s1' s2', alone L sy ms (fst (told cs a b)) = Ok s1' /\ alone L sy ms (snd (told cs a b)) = Ok s2'
    /\ same_answers s1 s1' /\ same_answers s2 s2'.
Proof.
move=> hL hs hc hr; refine (C108_forgetful_partial L _ _ _ (alg_forgetful (ekfvs_forget sy ms)) hL hs _ sy ms a b cs s1 s2 _ _ hc hr).
- by [].
- exact: s6_like_refl.
- by move=> k [K q] e; exists (existT _ K q), (mo_z q), (mo_cov q); split=> //; case: q e.
Qed.
End Six.

(** the hypotheses are met: two EKFs on one set of objects, predicting and correcting in turn, the
    second one also a copy of the first; nothing fails *)
Section Witness.
Context {TT : TimeOps} (secs : TT -> R).
Local Notation F := (ekf_alg (six_d_ops secs) (six_d_mops TT)).
Local Notation E := (alg_env F).
(** a filter that is certain of its estimate, with no process noise, and both sensors *)
Definition certain_f (s : St E) : Prop :=
  exists (x : 'cV[R]_18) (q1 : M6Obj 6) (q2 : M6Obj 4),
  [/\ f_x (c_cur (core s)) = dv (R := R_realFieldType) x /\ f_cov (c_cur (core s)) = dm (R := R_realFieldType) (0 : 'M_18),
      par s = default_params, projT1 (c_pc (core s)) = 0%N,
      so_Rp (c_sys (core s)) = 0 /\ so_is (c_sys (core s)) = None
    & c_meas (core s) = [:: dmeas (F := F) (k := 6) q1; dmeas (F := F) (k := 4) q2] /\ mo_is q1 = None /\ mo_is q2 = None].
Lemma certain_control (o : S6Obj) (x : 'cV[R]_18) d (u : 'cV[R]_0) (W : 'M[R]_0) dt : so_Rp o = 0 -> so_is o = None ->
  exists (o' : S6Obj) (x' : 'cV[R]_18),
    control_update (E := E) o (dv (R := R_realFieldType) x) (dm (R := R_realFieldType) (0 : 'M_18)) d (dv (R := R_realFieldType) u) (dm (R := R_realFieldType) W) dt
      = Ok (o', dv (R := R_realFieldType) x', dm (R := R_realFieldType) (0 : 'M_18))
    /\ so_Rp o' = 0 /\ so_is o' = None.
Proof.
move=> er es; rewrite /control_update; cbn [alg_env s_check fa_check ekf_alg so_check six_d_ops s_setRc my_predict].
rewrite es mat_of_dm; cbn [Outcome.obind negb]; rewrite !vec_of_dv mat_of_dm; cbn [Outcome.obind fa_predict ekf_alg fa_setRc].
rewrite /ekf_predict; cbn [sm_upd ns_base six_d_sys six_d_base so_setRc six_d_ops]; rewrite /s6_obj_upd; cbn [Outcome.obind fst snd].
set o' := mkS6Obj _ _ _ _ _; exists o', (ns_g (o' : sm (six_d_sys secs))); split; last by split.
cbn [sm_Rp sm_V six_d_base ns_base six_d_sys].
have -> : so_Rp o' = 0 by exact: er.
by rewrite !mulmx0 !mul0mx !addr0.
Qed.
Lemma certain_meas k (o : S6Obj) (q : M6Obj k) (x : 'cV[R]_18) (z : 'cV[R]_k) dt : mo_is q = None ->
  exists (q' : M6Obj k) (x' : 'cV[R]_18),
    meas_update (E := E) o (dmeas (F := F) (k := k) q) (dv (R := R_realFieldType) x) (dm (R := R_realFieldType) (0 : 'M_18)) (dv (R := R_realFieldType) z)
       (dm (R := R_realFieldType) (1%:M : 'M_k)) dt = Ok (o, dmeas (F := F) (k := k) q', dv (R := R_realFieldType) x', dm (R := R_realFieldType) (0 : 'M_18))
    /\ mo_is q' = None.
Proof.
move=> es; rewrite /meas_update; cbn [alg_env m_setCov m_check fa_mcheck ekf_alg mo_check six_d_mops m6_ops my_correct projT1 projT2 dmeas].
rewrite mat_of_dm; cbn [Outcome.obind projT1 projT2 dmeas fa_setCov ekf_alg mo_setCov six_d_mops m6_ops mo_is]; rewrite es; cbn [Outcome.obind negb].
rewrite !vec_of_dv mat_of_dm; cbn [Outcome.obind fa_correct ekf_alg]; rewrite /ekf_correct; cbn [mm_upd nm_base six_d_meas m6_class m6_base Outcome.obind].
set q' := mkM6Obj _ _ _ _ _ _; cbn [mm_cov]; rewrite mul0mx mulmx0 add0r.
set C := (X in inverse X); have -> : C = 1%:M by reflexivity.
rewrite /inverse unitmx1; cbn [Outcome.obind fst snd]; rewrite mulmx0; eexists q', _; split; reflexivity.
Qed.
Lemma certain_predict L (s : St E) t : certain_f s -> exists s', step L s (OpPredictT t) = Ok s' /\ certain_f s'.
Proof.
case=> x [q1 [q2 [[ex ep] eq e0 [er es] [em [i1 i2]]]]]; cbn [step]; rewrite /predict_t; case: (tlt _ _); last first.
  by exists s; split=> //; exists x, q1, q2.
rewrite /applyInput /input_core; cbn [i_ctl]; rewrite /applyControlInput /choose_control; cbn [i_data i_cov i_ts].
have -> : vsize (vempty : V E) = 0%N by [].
change (vsize (c_pc (core s))) with (projT1 (c_pc (core s))); rewrite e0.
have -> : PeanoNat.Nat.ltb 0 0 = false by [].
rewrite ex ep; set dt := tsub _ _.
have [o' [x' [-> [r' s']]]] := certain_control x (vempty : V E) (0 : 'cV[R]_0) (so_Rc (c_sys (core s))) dt er es.
cbn [Outcome.obind]; rewrite /pruneHistory; cbn [par]; rewrite eq; cbn [negb p_rewind default_params].
eexists; split; first reflexivity.
by exists x', q1, q2.
Qed.
Lemma certain_control_input (c : Core E) i (x : 'cV[R]_18) : i_data i = (c_pc c : V E) -> projT1 (c_pc c) = 0%N ->
  f_x (c_cur c) = dv (R := R_realFieldType) x -> f_cov (c_cur c) = dm (R := R_realFieldType) (0 : 'M_18) ->
  so_Rp (c_sys c) = 0 -> so_is (c_sys c) = None ->
  exists (o' : S6Obj) (x' : 'cV[R]_18), applyControlInput c i = Ok (set_est (set_sys c o') (dv (R := R_realFieldType) x' : V E) (dm (R := R_realFieldType) (0 : 'M_18) : Mx E))
    /\ so_Rp o' = 0 /\ so_is o' = None.
Proof.
move=> ed e0 ex ep er es; rewrite /applyControlInput /choose_control ed.
change (vsize (c_pc c)) with (projT1 (c_pc c)); rewrite e0.
have -> : PeanoNat.Nat.ltb 0 0 = false by [].
rewrite ex ep; set dt := tsub _ _.
have [o' [x' [-> [r' s']]]] := certain_control x (c_pc c : V E) (0 : 'cV[R]_0) (so_Rc (c_sys c)) dt er es.
by exists o', x'.
Qed.
Lemma certain_correct L (s : St E) (z : 'cV[R]_6) t : certain_f s ->
  exists s', step L s (OpCorrect (dv (R := R_realFieldType) z : V E) (dm (R := R_realFieldType) (1%:M : 'M_6) : Mx E) t (Some 0%N)) = Ok s' /\ certain_f s'.
Proof.
case=> x [q1 [q2 [[ex ep] eq e0 [er es] [em [i1 i2]]]]]; cbn [step]; rewrite /correct eq; cbn [negb p_rewind p_past default_params orb].
case: (tle _ _); last by exists s; split=> //; exists x, q1, q2.
rewrite /applyInput /input_core; cbn [i_ctl i_ts]; rewrite /applyMeasurementInput; cbn [i_model i_data i_cov i_ts].
set i := mkInput _ _ _ _ _; set dt := tsub _ _.
have [o' [x' [c' [-> [rp ris]]]]] : exists (o' : S6Obj) (x' : 'cV[R]_18) (t' : TT), advance_if_needed (core s) i dt =
   Ok (mkCore (mkFState (dv (R := R_realFieldType) x' : V E) (dm (R := R_realFieldType) (0 : 'M_18) : Mx E) t' (f_prev (c_cur (core s)))) (c_pc (core s)) (c_pcc (core s)) (o' : Sys E) (c_meas (core s)))
   /\ so_Rp o' = 0 /\ so_is o' = None.
  rewrite /advance_if_needed; case: (tlt _ _); last first.
    exists (c_sys (core s)), x, (f_ts (c_cur (core s))); split=> //.
    by rewrite -ex -ep; case: (core s) => -[].
  set j := mkInput _ _ _ _ _.
  have [o' [x' [-> h]]] := certain_control_input (i := j) erefl e0 ex ep er es.
  by cbn [Outcome.obind]; eexists o', x', _; split; first reflexivity.
cbn [Outcome.obind c_meas]; rewrite em; cbn [nth_error c_sys c_cur f_x f_cov].
have [q' [x'' [-> iq]]] := certain_meas o' x' z dt i1.
cbn [Outcome.obind]; rewrite /pruneHistory; cbn [par]; rewrite eq; cbn [negb p_rewind default_params].
eexists; split; first reflexivity.
by exists x'', q', q2.
Qed.

Definition example_sys : S6Obj := s6_obj_new true true.
Definition example_meas : list (DMeas F) := [:: dmeas (F := F) (k := 6) (imu_obj (imu_new true)); dmeas (F := F) (k := 4) (odom_obj (odom_new true))].
Definition example_cs (z z' : 'cV[R]_6) (t1 t2 t3 : TT) : list (Call E) :=
  [:: First (OpPredictT t1); Second (OpCorrect (E := E) (dv (R := R_realFieldType) z) (dm (R := R_realFieldType) (1%:M : 'M_6)) t2 (Some 0%N));
      First (OpCorrect (E := E) (dv (R := R_realFieldType) z') (dm (R := R_realFieldType) (1%:M : 'M_6)) t2 (Some 0%N)); Second (OpPredictT t3); Copy; Second (OpPredictT t3)].
Lemma certain_sees (a b : St E) : certain_f a -> certain_f b -> certain_f (sees a b).
Proof.
case=> x [q1 [q2 [[ex ep] eq e0 [er es] [em [i1 i2]]]]] [x' [q1' [q2' [[ex' ep'] eq' e0' _ _]]]].
by exists x', q1, q2.
Qed.
Example C108_six_d_nonvacuous (L : Lib E) (x y : 'cV[R]_18) z z' t0 t1 t2 t3 :
  List.Forall no_object_call (example_cs z z' t1 t2 t3) /\
  exists s1 s2, calls L (example_cs z z' t1 t2 t3)
    (made (example_sys : Sys E) (example_meas : list (Meas E)) (dv (R := R_realFieldType) x, dm (R := R_realFieldType) (0 : 'M_18), t0),
     made (example_sys : Sys E) (example_meas : list (Meas E)) (dv (R := R_realFieldType) y, dm (R := R_realFieldType) (0 : 'M_18), t0)) = Ok (s1, s2).
Proof.
split; first by repeat constructor.
set sa := made _ _ _; set sb := made _ _ _.
have ha : certain_f sa by exists x, (imu_obj (imu_new true)), (odom_obj (odom_new true)).
have hb : certain_f sb by exists y, (imu_obj (imu_new true)), (odom_obj (odom_new true)).
move: sa sb ha hb => sa sb ha hb; rewrite /calls /example_cs; cbn [ofold call fst snd].
have [a1 [-> ha1]] := certain_predict L t1 ha; cbn [Outcome.obind fst snd].
have [b1 [-> hb1]] := certain_correct L z t2 (certain_sees ha1 hb); cbn [Outcome.obind fst snd].
have [a2 [-> ha2]] := certain_correct L z' t2 (certain_sees hb1 ha1); cbn [Outcome.obind fst snd].
have [b2 [-> hb2]] := certain_predict L t3 (certain_sees ha2 hb1); cbn [Outcome.obind fst snd].
have [b3 [-> hb3]] := certain_predict L t3 (certain_sees hb2 ha2); cbn [Outcome.obind fst snd].
by eexists _, _.
Qed.
End Witness.
