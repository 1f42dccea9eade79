(** C95: a KalmanFilter that is told more uncertainty reports more uncertainty, through any sequence of calls. *)
From mathcomp Require Import all_ssreflect all_algebra.
From Coq Require Import ZArith.
From Verif Require Import Outcome FB_Model FB_Time FB_Trace FB_Sim McRing LinAlg KF_Algebra KF_Model FB_Alg FB_AlgSim KF_Filter Props_KF Props_KFRun Props_Sim.
Set Implicit Arguments.
Unset Strict Implicit.
Unset Printing Implicit Defensive.
Import GRing.Theory Num.Theory Order.TTheory.
Local Open Scope ring_scope.

(** ** The Riccati map is monotone *)
Section Riccati.
Variables (R : realFieldType) (n k : nat).
Lemma lleD a (A B C D : 'M[R]_a) : lle A B -> lle C D -> lle (A + C) (B + D).
Proof. by rewrite /lle => h1 h2; rewrite opprD addrACA; exact: psdD. Qed.
Lemma lle_congr a b (B : 'M[R]_(a, b)) (P1 P2 : 'M[R]_b) : lle P1 P2 -> lle (B *m P1 *m B^T) (B *m P2 *m B^T).
Proof. by rewrite /lle -mulmxBl -mulmxBr; exact: psd_congr. Qed.
Lemma lle_psd a (A B : 'M[R]_a) : psd A -> lle A B -> psd B.
Proof. by rewrite /lle => h1 h2; rewrite -(subrK A B); exact: psdD. Qed.
Lemma lle_pd a (A B : 'M[R]_a) : pd A -> lle A B -> pd B.
Proof. by rewrite /lle => h1 h2; rewrite -(subrK A B); exact: psd_pdD. Qed.
(** the corrected covariance is the smallest over all gains, and each gain's is monotone *)
Lemma post_mono (C : 'M[R]_(k, n)) (P1 P2 : 'M[R]_n) (Q1 Q2 : 'M[R]_k) : psd P1 -> pd Q1 -> lle P1 P2 -> lle Q1 Q2 ->
  lle ((1%:M - gain P1 C Q1 *m C) *m P1) ((1%:M - gain P2 C Q2 *m C) *m P2).
Proof.
move=> pP pQ hP hQ; have pP2 := lle_psd pP hP; have pQ2 := lle_pd pQ hQ.
have u1 := pd_unit (innov_pd C pP pQ); have u2 := pd_unit (innov_pd C pP2 pQ2).
rewrite (post_joseph (P := P2)) //; [|by case: pP2|by case: pQ2].
apply: lle_trans (post_optimal (gain P2 C Q2) pP (pd_psd pQ) u1) _.
by rewrite /joseph; apply: lleD; exact: lle_congr.
Qed.
End Riccati.

Section C95.
Variables (R : realFieldType) (TT : TimeOps) (n m p1 p2 : nat).
Variables (S1 : LinSys R TT n m p1) (O1 : SysOps S1) (S2 : LinSys R TT n m p2) (O2 : SysOps S2).
Variables (M1 : forall k, LinMeas R TT n k) (MO1 : forall k, MeasOps (M1 k)) (M2 : forall k, LinMeas R TT n k) (MO2 : forall k, MeasOps (M2 k)).
(** system model objects, measurement model objects, and those with the covariance of a measurement just set *)
Variables (J : sm S1 -> sm S2 -> Prop) (JM JMC : forall k, mm (M1 k) -> mm (M2 k) -> Prop).

(** the second filter's models have the same matrices A and C (whatever data they were updated with) and at
    least as much noise; stationary handling is off *)
Record noisier : Prop := {
  no_Rc : forall o1 o2, J o1 o2 -> psd (sm_Rc o1) /\ lle (sm_Rc o1) (sm_Rc o2);
  no_setRc : forall o1 o2 r1 r2, J o1 o2 -> psd r1 -> lle r1 r2 -> J (so_setRc O1 o1 r1) (so_setRc O2 o2 r2);
  no_upd : forall o1 o2 x1 x2 u1 u2 dt, J o1 o2 ->
    orel (fun o1' o2' => [/\ J o1' o2', ls_A o1' = ls_A o2', psd (noise o1') & lle (noise o1') (noise o2')])
      (sm_upd o1 x1 u1 dt) (sm_upd o2 x2 u2 dt);
  no_check : (forall o, so_check O1 o = false) /\ (forall o, so_check O2 o = false);
  nom_setCov : forall k (q1 : mm (M1 k)) (q2 : mm (M2 k)) Q1 Q2, JM q1 q2 -> pd Q1 -> lle Q1 Q2 -> JMC (mo_setCov (MO1 k) q1 Q1) (mo_setCov (MO2 k) q2 Q2);
  nom_any : forall k (q1 : mm (M1 k)) (q2 : mm (M2 k)), JMC q1 q2 -> JM q1 q2;
  nom_upd : forall k (q1 : mm (M1 k)) (q2 : mm (M2 k)) x1 x2 dt, JMC q1 q2 ->
    orel (fun q1' q2' => [/\ JM q1' q2', lm_C q1' = lm_C q2', pd (mm_cov q1') & lle (mm_cov q1') (mm_cov q2')])
      (mm_upd q1 x1 dt) (mm_upd q2 x2 dt);
  nom_check : forall k, (forall q, mo_check (MO1 k) q = false) /\ (forall q, mo_check (MO2 k) q = false)
}.

Let F1 := kf_alg O1 MO1.
Let F2 := kf_alg O2 MO2.
Let X (_ : 'cV[R]_n) (P1 : 'M[R]_n) (_ : 'cV[R]_n) (P2 : 'M[R]_n) := psd P1 /\ lle P1 P2.
Let Z (_ k : nat) (_ : 'cV[R]_k) (Q1 : 'M[R]_k) (_ : 'cV[R]_k) (Q2 : 'M[R]_k) := pd Q1 /\ lle Q1 Q2.
Let W (r1 r2 : 'M[R]_m) := psd r1 /\ lle r1 r2.
Let TV (d : Type) (_ _ : d) := True.

Definition more_uncertain_meas (a : DMeas F1) (b : DMeas F2) : Prop :=
  exists k (q1 : mm (M1 k)) (q2 : mm (M2 k)), [/\ a = existT _ k q1, b = existT _ k q2 & JM q1 q2].
(** the same calls at the same times with covariances at least as large; the values of states, controls and
    measurements do not matter *)
Definition more_uncertain (o1 : Op (E := alg_env F1)) (o2 : Op (E := alg_env F2)) : Prop :=
  match o1, o2 with
  | OpInit x1 P1 t1, OpInit x2 P2 t2 => t1 = t2 /\ exists (a b : 'cV[R]_n) (V1 V2 : 'M[R]_n), [/\ x1 = dv a, x2 = dv b, P1 = dm V1, P2 = dm V2 & psd V1 /\ lle V1 V2]
  | OpPredictT t1, OpPredictT t2 => t1 = t2
  | OpPredictU u1 t1, OpPredictU u2 t2 | OpEnqC u1 t1, OpEnqC u2 t2 => t1 = t2 /\ projT1 u1 = projT1 u2
  | OpCorrect z1 Q1 t1 k1, OpCorrect z2 Q2 t2 k2 | OpEnqM z1 Q1 t1 k1, OpEnqM z2 Q2 t2 k2 =>
      [/\ t1 = t2, k1 = k2, projT1 z1 = projT1 z2 & exists k (V1 V2 : 'M[R]_k), [/\ Q1 = dm V1, Q2 = dm V2, pd V1 & lle V1 V2]]
  | OpProcess, OpProcess | OpClearC, OpClearC | OpClearM, OpClearM => True
  | OpRevert t1, OpRevert t2 => t1 = t2
  | OpParams p1, OpParams p2 => p1 = p2
  | OpSys f1, OpSys f2 => forall s1 s2, J s1 s2 -> J (f1 s1) (f2 s2)
  | OpMeas f1, OpMeas f2 => forall l1 l2, List.Forall2 more_uncertain_meas l1 l2 -> List.Forall2 more_uncertain_meas (f1 l1) (f2 l2)
  | _, _ => False
  end.

Hypothesis H : noisier.

Lemma mono_sim : AlgSim (F1 := F1) (F2 := F2) X (@TV 'cV[R]_m) (@TV (DV R)) W J (fun _ => JM) (fun _ => JMC) Z.
Proof.
have [c1 c2] := no_check H.
split => //=.
- by move=> s1 s2 /(no_Rc H).
- by move=> s1 s2 r1 r2 h [h1 h2]; exact: (no_setRc H).
- by move=> s1 s2 _; rewrite c1 c2.
- by move=> s1 s2 x1 P1 x2 P2 d1 d2 _ _ _; rewrite c1.
- by move=> s1 s2 x1 P1 x2 P2 d1 d2 _ _ _; rewrite c1.
- by move=> s1 s2 x1 P1 x2 P2 d1 d2 _ _ _; rewrite c1.
- move=> s1 s2 x1 P1 x2 P2 u1 u2 dt hs [pP hP] _.
  apply: orel_bind; first exact: (no_upd H x1 x2 u1 u2 dt hs).
  move=> o1 o2 [ho eA pn hn]; split => //=; rewrite /X -!addrA -/(noise o1) -/(noise o2) eA; split.
    by apply: psdD => //; exact: psd_congr.
  by apply: lleD => //; exact: lle_congr.
- by move=> i k a b z1 z2 Q1 Q2 h [h1 h2]; exact: (nom_setCov H).
- by move=> i k a b; exact: (nom_any H).
- by move=> i k a b _; have [d1 d2] := nom_check H k; rewrite d1 d2.
- by move=> i k a b *; have [d1 _] := nom_check H k; move: (d1 a) => e; congruence.
- by move=> i k a b *; have [d1 _] := nom_check H k; move: (d1 a) => e; congruence.
- by move=> i k a b *; have [d1 _] := nom_check H k; move: (d1 a) => e; congruence.
- move=> i k s1 s2 a b x1 P1 x2 P2 z1 z2 Q1 Q2 dt hs hm [pP hP] [pQ hQ].
  apply: orel_bind (_ : orel (fun r1 r2 => JM r1.1.1 r2.1.1 /\ X r1.1.2 r1.2 r2.1.2 r2.2) _ _) _; last first.
    by move=> [[q1 y1] V1] [[q2 y2] V2] [h1 h2]; split.
  apply: orel_bind; first exact: (nom_upd H x1 x2 dt hm).
  move=> q1 q2 [hq eC pC hC].
  have pP2 := lle_psd pP hP; have pC2 := lle_pd pC hC.
  have u1 := pd_unit (innov_pd (lm_C q1) pP pC); have u2 := pd_unit (innov_pd (lm_C q1) pP2 pC2).
  rewrite /inverse -eC -/(innov P1 (lm_C q1) (mm_cov q1)) -/(innov P2 (lm_C q1) (mm_cov q2)) u1 u2 /=.
  rewrite -/(gain P1 (lm_C q1) (mm_cov q1)) -/(gain P2 (lm_C q1) (mm_cov q2)).
  by split => //; split; [apply: post_psd => //; exact: pd_psd|exact: post_mono].
Qed.

Lemma mono_meas j l1 l2 : List.Forall2 more_uncertain_meas l1 l2 <-> meas_rel (E1 := alg_env F1) (E2 := alg_env F2) (MD (F1 := F1) (F2 := F2) (fun _ => JM)) j l1 l2.
Proof.
split.
  by move=> h; elim: h j => [//|a b l1' l2' h _ IH] j /=; split; [case: h => k [q1 [q2 [-> -> hq]]]; exists k, q1, q2|exact: IH].
elim: l1 l2 j => [|a l1 IH] [|b l2] j //= [[k [q1 [q2 [-> -> hq]]]] hl]; constructor; [by exists k, q1, q2|exact: IH hl].
Qed.
Lemma mono_op o1 o2 : more_uncertain o1 o2 ->
  op_rel (E1 := alg_env F1) (E2 := alg_env F2) (XD X) (UD (@TV 'cV[R]_m) (@TV (DV R))) J (MD (F1 := F1) (F2 := F2) (fun _ => JM)) (ZD Z) o1 o2.
Proof.
have hu (u1 u2 : DV R) : projT1 u1 = projT1 u2 -> UD (@TV 'cV[R]_m) (@TV (DV R)) u1 u2.
  case: u1 u2 => [d1 u1] [d2 u2] /= e; subst d2; have [e|ne] := d1 =P m; last by right.
  by left; subst d1; exists u1, u2.
have hz i (z1 z2 : DV R) k (V1 V2 : 'M[R]_k) : projT1 z1 = projT1 z2 -> pd V1 -> lle V1 V2 -> ZD Z i z1 (dm V1) z2 (dm V2).
  case: z1 z2 => [d1 u1] [d2 u2] /= e h1 h2; subst d2; have [e|ne] := d1 =P k; last by right.
  by left; subst d1; exists k, u1, u2, V1, V2.
case: o1 => [x1 P1 t1|t1|u1 t1|z1 Q1 t1 k1|u1 t1|z1 Q1 t1 k1||||t1|q1|f1|f1]; case: o2 => [x2 P2 t2|t2|u2 t2|z2 Q2 t2 k2|u2 t2|z2 Q2 t2 k2||||t2|q2|f2|f2] //=.
- by move=> [-> [a [b [V1 [V2 [-> -> -> -> h]]]]]]; split => //; exists a, V1, b, V2.
- by move=> [-> e]; split => //; apply: hu.
- by move=> [-> -> e [k [V1 [V2 [-> -> h1 h2]]]]]; do 2 split => //; case: k2 => // i; apply: hz.
- by move=> [-> e]; split => //; apply: hu.
- by move=> [-> -> e [k [V1 [V2 [-> -> h1 h2]]]]]; do 2 split => //; case: k2 => // i; apply: hz.
- by move=> h l1 l2 /mono_meas h1; apply/mono_meas; apply: h.
Qed.

Theorem C95_kf_monotone (L1 : Lib (alg_env F1)) (L2 : Lib (alg_env F2)) (sy1 : sm S1) (sy2 : sm S2) (ms1 : list (DMeas F1)) (ms2 : list (DMeas F2))
    (x1 x2 : 'cV[R]_n) (P1 P2 : 'M[R]_n) (t : TT) ops1 ops2 :
  same_lib L1 L2 -> J sy1 sy2 -> List.Forall2 more_uncertain_meas ms1 ms2 -> psd P1 -> lle P1 P2 -> List.Forall2 more_uncertain ops1 ops2 ->
  orel (fun (s1 : St (alg_env F1)) (s2 : St (alg_env F2)) => exists V1 V2 : 'M[R]_n, [/\ getCovariance s1 = dm V1, getCovariance s2 = dm V2, lle V1 V2, forall i, V1 i i <= V2 i i
                     & getStateTime s1 = getStateTime s2])
    (run L1 ops1 (new_filter (E := alg_env F1) sy1 ms1 (dv x1) (dm P1) t))
    (run L2 ops2 (new_filter (E := alg_env F2) sy2 ms2 (dv x2) (dm P2) t)).
Proof.
move=> hL hs /(@mono_meas 0) hm h1 h2 ho.
have ho' : List.Forall2 (op_rel (E1 := alg_env F1) (E2 := alg_env F2) (XD X) (UD (@TV 'cV[R]_m) (@TV (DV R))) J (MD (F1 := F1) (F2 := F2) (fun _ => JM)) (ZD Z)) ops1 ops2.
  by elim: ho => [|a b l1 l2 h _ IH]; constructor => //; exact: mono_op.
apply: orel_impl (alg_run_sim mono_sim t hL hs hm (conj h1 h2 : X x1 P1 x2 P2) ho').
move=> s1 s2 [[y1 [V1 [y2 [V2 [_ e1 _ e2 [_ h]]]]]] e3]; exists V1, V2; split => // i; exact: lle_diag h.
Qed.
End C95.

(** the model of Props_KFRun.v, with covariances 1 and 2 *)
Section Witness.
Variable R : realFieldType.
Example C95_nonvacuous (x1 x2 : 'cV[R]_2) (u1 u2 z1 z2 : 'cV[R]_1) :
  let J := (fun a b : 'M[R]_1 => psd a /\ lle a b) in let JM := (fun k (_ _ : 'M[R]_k) => True) in let JMC := (fun k (a b : 'M[R]_k) => pd a /\ lle a b) in
  [/\ noisier (@w_ops R) (@w_ops R) (@w_mops R) (@w_mops R) J JM JMC, lle (1%:M : 'M[R]_2) (2%:R%:M)
    & List.Forall2 (more_uncertain (O1 := @w_ops R) (O2 := @w_ops R) (MO1 := @w_mops R) (MO2 := @w_mops R) J JM)
        [:: OpPredictU (E := alg_env (kf_alg (@w_ops R) (@w_mops R))) (dv u1) (zt 1); OpCorrect (E := alg_env (kf_alg (@w_ops R) (@w_mops R))) (dv z1) (dm (1%:M : 'M[R]_1)) (zt 2) (Some 0%nat)]
        [:: OpPredictU (E := alg_env (kf_alg (@w_ops R) (@w_mops R))) (dv u2) (zt 1); OpCorrect (E := alg_env (kf_alg (@w_ops R) (@w_mops R))) (dv z2) (dm (2%:R%:M : 'M[R]_1)) (zt 2) (Some 0%nat)]].
Proof.
have l12 a : lle (1%:M : 'M[R]_a) (2%:R%:M).
  have -> : (2%:R%:M : 'M[R]_a) = 1%:M + 1%:M by rewrite -raddfD.
  by rewrite /lle addrK; apply: pd_psd; exact: pd1.
move=> J JM JMC; split => //.
- split => //=; last by move=> k q1 q2 _ _ _ [].
  move=> o1 o2 y1 y2 v1 v2 _ [h1 h2]; split => //.
    by apply: psdD; apply: psd_congr => //; apply: pd_psd; exact: pd1.
  by apply: lleD; [exact: lle_refl|exact: lle_congr].
- apply: List.Forall2_cons => //; apply: List.Forall2_cons; last exact: List.Forall2_nil.
  by split => //; exists 1%nat, 1%:M, (2%:R%:M); split => //; exact: pd1.
Qed.
End Witness.
