(** C45 - C48 for KalmanFilterVS and EKFVS (UKFVS: Props_VSU.v). *)
From mathcomp Require Import all_ssreflect all_algebra.
From Verif Require Import Outcome McRing LinAlg KF_Algebra KF_Model VS_Lemmas Props_KF Props_KFRun.
Set Implicit Arguments.
Unset Strict Implicit.
Unset Printing Implicit Defensive.
Import GRing.Theory Num.Theory Order.TTheory.
Local Open Scope ring_scope.

(** every index is active: the list is empty (no restriction) or lists all indices in order *)
Definition all_active n (l : seq 'I_n) : Prop := l = [::] \/ l = enum 'I_n.
Lemma all_active_eff n (l : seq 'I_n) : all_active l -> eff l = enum 'I_n.
Proof. by case=> -> //=; rewrite /eff; case: (enum 'I_n) => //. Qed.
(** j is not an active index *)
Definition inactive n (l : seq 'I_n) (j : 'I_n) : Prop := l != [::] /\ j \notin l.
Lemma inactive_eff n (l : seq 'I_n) j : inactive l j -> j \notin eff l.
Proof. by case; case: l. Qed.
Lemma inactive_out n (l : seq 'I_n) j : inactive l j -> forall i, @aix _ l i != j.
Proof. by move/inactive_eff; exact: aix_out. Qed.

Section VS.
Variables (R : realFieldType) (T : Type).
Add Field Rfield : (mc_field R).
Variables n m p k : nat.
Implicit Types (x : 'cV[R]_n) (P : 'M[R]_n) (u : 'cV[R]_m) (z : 'cV[R]_k) (dt : T).

(** ** C45: with everything active they are KalmanFilter and EKF *)
Lemma kfvs_predict_id s c (f : 'I_s -> 'I_n) (fc : 'I_c -> 'I_m) (S : LinSys R T n m p) (o1 : sm S) x P u :
  s = n -> c = m -> (forall i, f i = i :> nat) -> (forall i, fc i = i :> nat) ->
  kfvs_predict_with f fc o1 x P u = (sm_add o1 (ls_A o1 *m x) (ls_B o1 *m u),
     ls_A o1 *m P *m (ls_A o1)^T + sm_P o1 *m sm_Rp o1 *m (sm_P o1)^T + sm_V o1 *m sm_Rc o1 *m (sm_V o1)^T).
Proof.
move=> e e'; subst s c; move=> hf hc; have hi (i : 'I_p) : id i = i :> nat by [].
by rewrite /kfvs_predict_with /zput1 !(get1_id hf) !(get1_id hc) !(get2_id hf hf) !(get2_id hf hc) !(get2_id hc hc) !(get2_id hf hi) !(put1_id hf) (put2_id hf hf).
Qed.
Theorem C45_kfvs_predict (S : LinSys R T n m p) (o : sm S) x P u dt :
  (forall o1, sm_upd o x u dt = Ok o1 -> all_active (sm_act o1) /\ all_active (sm_actC o1)) ->
  kfvs_predict o x P u dt = kf_predict o x P u dt.
Proof.
rewrite /kfvs_predict /kf_predict; case: (sm_upd o x u dt) => [o1|//] /(_ _ erefl)[/all_active_eff a /all_active_eff b].
have e := kfvs_predict_id o1 x P u (eff_size a) (eff_size b) (aix_id a) (aix_id b).
by rewrite /obind e.
Qed.
Lemma kfvs_correct_id s c (f : 'I_s -> 'I_n) (fm : 'I_c -> 'I_k) (S : LinSys R T n m p) (M : LinMeas R T n k) (o : sm S) (q1 : mm M) x P z :
  s = n -> c = k -> (forall i, f i = i :> nat) -> (forall i, fm i = i :> nat) ->
  kfvs_correct_with f fm o q1 x P z =
    (let* inv := inverse (lm_C q1 *m (P *m (lm_C q1)^T) + mm_cov q1) in
     let K := P *m (lm_C q1)^T *m inv in
     Ok (sm_add o x (K *m mm_sub q1 z (lm_C q1 *m x)), (1%:M - K *m lm_C q1) *m P)).
Proof.
move=> e e'; subst s c; move=> hf hm.
rewrite /kfvs_correct_with /zput1 !(get1_id hf) !(get2_id hf hf) !(get2_id hm hf) !(get2_id hm hm) !(put1_id hm).
by case: (inverse _) => [inv|//] /=; rewrite !(get1_id hm) !(put1_id hf) (put2_id hf hf).
Qed.
Theorem C45_kfvs_correct (S : LinSys R T n m p) (M : LinMeas R T n k) (o : sm S) (q : mm M) x P z dt :
  all_active (sm_act o) -> (forall q1, mm_upd q x dt = Ok q1 -> all_active (mm_act q1)) ->
  kfvs_correct o q x P z dt = kf_correct o q x P z dt.
Proof.
move=> /all_active_eff a; rewrite /kfvs_correct /kf_correct; case: (mm_upd q x dt) => [q1|//] /= /(_ _ erefl)/all_active_eff b.
rewrite (kfvs_correct_id _ _ _ _ _ (eff_size a) (eff_size b) (aix_id a) (aix_id b)).
by case: (inverse _).
Qed.
Lemma ekfvs_cov_id s c (f : 'I_s -> 'I_n) (fc : 'I_c -> 'I_m) (S : NonlinSys R T n m p) (o1 : sm S) P :
  s = n -> c = m -> (forall i, f i = i :> nat) -> (forall i, fc i = i :> nat) ->
  ekfvs_cov_with f fc o1 P = ns_G o1 *m P *m (ns_G o1)^T + sm_P o1 *m sm_Rp o1 *m (sm_P o1)^T + sm_V o1 *m sm_Rc o1 *m (sm_V o1)^T.
Proof.
move=> e e'; subst s c; move=> hf hc; have hi (i : 'I_p) : id i = i :> nat by [].
by rewrite /ekfvs_cov_with !(get2_id hf hf) !(get2_id hf hc) !(get2_id hc hc) !(get2_id hf hi) (put2_id hf hf).
Qed.
Theorem C45_ekfvs_predict (S : NonlinSys R T n m p) (o : sm S) x P u dt :
  (forall o1, sm_upd o x u dt = Ok o1 -> all_active (sm_act o1) /\ all_active (sm_actC o1)) ->
  ekfvs_predict o x P u dt = ekf_predict o x P u dt.
Proof.
rewrite /ekfvs_predict /ekf_predict; case: (sm_upd o x u dt) => [o1|//] /= /(_ _ erefl)[/all_active_eff a /all_active_eff b].
by rewrite (ekfvs_cov_id _ _ (eff_size a) (eff_size b) (aix_id a) (aix_id b)).
Qed.
Lemma ekfvs_correct_id s c (f : 'I_s -> 'I_n) (fm : 'I_c -> 'I_k) (S : NonlinSys R T n m p) (M : NonlinMeas R T n k) (o : sm S) (q1 : mm M) x P z :
  s = n -> c = k -> (forall i, f i = i :> nat) -> (forall i, fm i = i :> nat) ->
  ekfvs_correct_with f fm o q1 x P z =
    (let* inv := inverse (nm_H q1 *m (P *m (nm_H q1)^T) + mm_cov q1) in
     let K := P *m (nm_H q1)^T *m inv in
     Ok (sm_add o x (K *m mm_sub q1 z (nm_h q1)), (1%:M - K *m nm_H q1) *m P)).
Proof.
move=> e e'; subst s c; move=> hf hm.
rewrite /ekfvs_correct_with /zput1 !(get2_id hf hf) !(get2_id hm hf) !(get2_id hm hm).
by case: (inverse _) => [inv|//] /=; rewrite !(get1_id hm) !(put1_id hf) (put2_id hf hf).
Qed.
Theorem C45_ekfvs_correct (S : NonlinSys R T n m p) (M : NonlinMeas R T n k) (o : sm S) (q : mm M) x P z dt :
  all_active (sm_act o) -> (forall q1, mm_upd q x dt = Ok q1 -> all_active (mm_act q1)) ->
  ekfvs_correct o q x P z dt = ekf_correct o q x P z dt.
Proof.
move=> /all_active_eff a; rewrite /ekfvs_correct /ekf_correct; case: (mm_upd q x dt) => [q1|//] /= /(_ _ erefl)/all_active_eff b.
rewrite (ekfvs_correct_id _ _ _ _ _ (eff_size a) (eff_size b) (aix_id a) (aix_id b)).
by case: (inverse _).
Qed.

(** ** C46: what happens to inactive states *)
(** the covariance entries of an inactive state are never changed *)
Theorem C46_kfvs_predict_cov_partial (S : LinSys R T n m p) (o o1 : sm S) x P u dt x' P' a b :
  kfvs_predict o x P u dt = Ok (o1, x', P') -> inactive (sm_act o1) a \/ inactive (sm_act o1) b -> P' a b = P a b.
Proof.
rewrite /kfvs_predict; case: (sm_upd o x u dt) => [o2|//] /= [<- _ <-] h; apply: put2_out; apply/orP.
by case: h => h; [left|right]; apply/forallP => i; apply: inactive_out.
Qed.
Theorem C46_ekfvs_predict_cov_partial (S : NonlinSys R T n m p) (o o1 : sm S) x P u dt x' P' a b :
  ekfvs_predict o x P u dt = Ok (o1, x', P') -> inactive (sm_act o1) a \/ inactive (sm_act o1) b -> P' a b = P a b.
Proof.
rewrite /ekfvs_predict; case: (sm_upd o x u dt) => [o2|//] /= [<- _ <-] h; apply: put2_out; apply/orP.
by case: h => h; [left|right]; apply/forallP => i; apply: inactive_out.
Qed.
(** corrections leave inactive states alone *)
Theorem C46_kfvs_correct_partial (S : LinSys R T n m p) (M : LinMeas R T n k) (o : sm S) (q q1 : mm M) x P z dt x' P' a :
  sm_add o = @add_default R n -> kfvs_correct o q x P z dt = Ok (q1, x', P') -> inactive (sm_act o) a ->
  x' a 0 = x a 0 /\ (forall b, P' a b = P a b /\ P' b a = P b a).
Proof.
move=> d; rewrite /kfvs_correct; case: (mm_upd q x dt) => [q2|//] /=; rewrite /kfvs_correct_with.
case: (inverse _) => [inv|//] /= [_ <- <-] h; rewrite d /add_default; split.
  by rewrite mxE put1_out ?mxE ?addr0 //; exact: inactive_out.
by move=> b; split; apply: put2_out; apply/orP; [left|right]; apply/forallP => i; apply: inactive_out.
Qed.
Theorem C46_ekfvs_correct_partial (S : NonlinSys R T n m p) (M : NonlinMeas R T n k) (o : sm S) (q q1 : mm M) x P z dt x' P' a :
  sm_add o = @add_default R n -> ekfvs_correct o q x P z dt = Ok (q1, x', P') -> inactive (sm_act o) a ->
  x' a 0 = x a 0 /\ (forall b, P' a b = P a b /\ P' b a = P b a).
Proof.
move=> d; rewrite /ekfvs_correct; case: (mm_upd q x dt) => [q2|//] /=; rewrite /ekfvs_correct_with.
case: (inverse _) => [inv|//] /= [_ <- <-] h; rewrite d /add_default; split.
  by rewrite mxE put1_out ?mxE ?addr0 //; exact: inactive_out.
by move=> b; split; apply: put2_out; apply/orP; [left|right]; apply/forallP => i; apply: inactive_out.
Qed.
(** ... but every KalmanFilterVS prediction sets every inactive state to zero *)
Theorem C46_kfvs_predict_zeroes (S : LinSys R T n m p) (o o1 : sm S) x P u dt x' P' a :
  sm_add o1 = @add_default R n -> kfvs_predict o x P u dt = Ok (o1, x', P') -> inactive (sm_act o1) a -> x' a 0 = 0.
Proof.
rewrite /kfvs_predict; case: (sm_upd o x u dt) => [o2|//] /= d [e <- _] h; subst o2; rewrite /= d /add_default mxE.
by rewrite !put1_out ?mxE ?addr0 //; exact: inactive_out.
Qed.
(** an EKFVS prediction gives an inactive state the value g() gives it *)
Theorem C46_ekfvs_predict_partial (S : NonlinSys R T n m p) (o o1 : sm S) x P u dt x' P' a :
  ekfvs_predict o x P u dt = Ok (o1, x', P') -> ns_g o1 a 0 = x a 0 -> x' a 0 = x a 0.
Proof. by rewrite /ekfvs_predict; case: (sm_upd o x u dt) => [o2|//] /= [<- <- _] ->. Qed.

(** ** C48: the active block is the fixed-state filter of the active subsystem *)
(** the models restricted to active states f, controls fc, measurements fm: the other state and
    control variables are held at those of x and u *)
Section Sub.
Variables (s c d : nat) (f : 'I_s -> 'I_n) (fc : 'I_c -> 'I_m) (fm : 'I_d -> 'I_k) (x : 'cV[R]_n) (u : 'cV[R]_m).
Definition sub_sysI (S : SysI R T n m p) : SysI R T s c p := {|
  sm := sm S; sm_upd := fun o y v dt => sm_upd o (put1 f y x) (put1 fc v u) dt;
  sm_P := fun o => get2 f id (sm_P o); sm_V := fun o => get2 f fc (sm_V o); sm_Rp := @sm_Rp _ _ _ _ _ S; sm_Rc := fun o => get2 fc fc (sm_Rc o);
  sm_add := fun _ => @add_default R s; sm_sub := fun _ => @sub_default R s; sm_wsum := fun _ => @wsum_default R s;
  sm_act := fun _ => [::]; sm_actC := fun _ => [::] |}.
Definition sub_lin (S : LinSys R T n m p) : LinSys R T s c p :=
  @Build_LinSys R T s c p (sub_sysI S) (fun o => get2 f f (ls_A o)) (fun o => get2 f fc (ls_B o)).
Definition sub_nonlin (S : NonlinSys R T n m p) : NonlinSys R T s c p :=
  @Build_NonlinSys R T s c p (sub_sysI S) (fun o => get1 f (ns_g o)) (fun o => get2 f f (ns_G o)).
Definition sub_measI (M : MeasI R T n k) : MeasI R T s d := {|
  mm := mm M; mm_upd := fun q y dt => mm_upd q (put1 f y x) dt; mm_cov := fun q => get2 fm fm (mm_cov q);
  mm_sub := fun _ => @sub_default R d; mm_wsum := fun _ => @wsum_default R d; mm_act := fun _ => [::] |}.
Definition sub_lmeas (M : LinMeas R T n k) : LinMeas R T s d :=
  @Build_LinMeas R T s d (sub_measI M) (fun q => get2 fm f (lm_C q)).
Definition sub_nmeas (M : NonlinMeas R T n k) : NonlinMeas R T s d :=
  @Build_NonlinMeas R T s d (sub_measI M) (fun q => get1 fm (nm_h q)) (fun q => get2 fm f (nm_H q)).
End Sub.

Theorem C48_kfvs_predict (S : LinSys R T n m p) (o o1 : sm S) x P u dt x' P' :
  kfvs_predict o x P u dt = Ok (o1, x', P') -> uniq (sm_act o1) -> uniq (sm_actC o1) -> sm_add o1 = @add_default R n ->
  let f := @aix _ (sm_act o1) in let fc := @aix _ (sm_actC o1) in
  kf_predict (S := sub_lin f fc x u S) o (get1 f x) (get2 f f P) (get1 fc u) dt = Ok (o1, get1 f x', get2 f f P').
Proof.
rewrite /kfvs_predict; case e: (sm_upd o x u dt) => [o2|//] /= [eo <- <-] ua uc d; subst o2.
have jf := aix_inj ua; have jc := aix_inj uc.
rewrite /kf_predict /= !put_get1 // e /= d /add_default get1D !get_zput1 //= get_put2 //.
Qed.
Theorem C48_ekfvs_predict (S : NonlinSys R T n m p) (o o1 : sm S) x P u dt x' P' :
  ekfvs_predict o x P u dt = Ok (o1, x', P') -> uniq (sm_act o1) -> uniq (sm_actC o1) ->
  let f := @aix _ (sm_act o1) in let fc := @aix _ (sm_actC o1) in
  ekf_predict (S := sub_nonlin f fc x u S) o (get1 f x) (get2 f f P) (get1 fc u) dt = Ok (o1, get1 f x', get2 f f P').
Proof.
rewrite /ekfvs_predict; case e: (sm_upd o x u dt) => [o2|//] /= [eo <- <-] ua uc; subst o2.
have jf := aix_inj ua; have jc := aix_inj uc.
rewrite /ekf_predict /= !put_get1 // e /= get_put2 //.
Qed.
Theorem C48_kfvs_correct (S : LinSys R T n m p) (M : LinMeas R T n k) (o : sm S) (q q1 : mm M) x P z dt x' P' :
  kfvs_correct o q x P z dt = Ok (q1, x', P') -> uniq (sm_act o) -> uniq (mm_act q1) ->
  sm_add o = @add_default R n -> mm_sub q1 = @sub_default R k ->
  let f := @aix _ (sm_act o) in let fm := @aix _ (mm_act q1) in
  forall c (fc : 'I_c -> 'I_m) u,
  kf_correct (S := sub_lin f fc x u S) (M := sub_lmeas f fm x M) o q (get1 f x) (get2 f f P) (get1 fm z) dt = Ok (q1, get1 f x', get2 f f P').
Proof.
rewrite /kfvs_correct; case e: (mm_upd q x dt) => [q2|//] /=; rewrite /kfvs_correct_with.
case ei: (inverse _) => [inv|//] /= [eq <- <-] ua um d d' c fc u; subst q2.
have jf := aix_inj ua; have jm := aix_inj um.
by rewrite /kf_correct /= put_get1 // e /= ei /= d d' /add_default /sub_default get1D get1B !get_zput1 // get_put2.
Qed.
Theorem C48_ekfvs_correct (S : NonlinSys R T n m p) (M : NonlinMeas R T n k) (o : sm S) (q q1 : mm M) x P z dt x' P' :
  ekfvs_correct o q x P z dt = Ok (q1, x', P') -> uniq (sm_act o) -> uniq (mm_act q1) ->
  sm_add o = @add_default R n -> mm_sub q1 = @sub_default R k ->
  let f := @aix _ (sm_act o) in let fm := @aix _ (mm_act q1) in
  forall c (fc : 'I_c -> 'I_m) u,
  ekf_correct (S := sub_nonlin f fc x u S) (M := sub_nmeas f fm x M) o q (get1 f x) (get2 f f P) (get1 fm z) dt = Ok (q1, get1 f x', get2 f f P').
Proof.
rewrite /ekfvs_correct; case e: (mm_upd q x dt) => [q2|//] /=; rewrite /ekfvs_correct_with.
case ei: (inverse _) => [inv|//] /= [eq <- <-] ua um d d' c fc u; subst q2.
have jf := aix_inj ua; have jm := aix_inj um.
by rewrite /ekf_correct /= put_get1 // e /= ei /= d d' /add_default /sub_default get1D get1B !get_zput1 // get_put2.
Qed.
(** so the active block stays symmetric PSD, does not grow in corrections, and corrections are
    defined *)
Theorem C48_kfvs_predict_psd (S : LinSys R T n m p) (o o1 : sm S) x P u dt x' P' :
  kfvs_predict o x P u dt = Ok (o1, x', P') -> uniq (sm_act o1) ->
  psd (sm_Rp o1) -> psd (sm_Rc o1) -> psd (get2 (@aix _ (sm_act o1)) (@aix _ (sm_act o1)) P) ->
  psd (get2 (@aix _ (sm_act o1)) (@aix _ (sm_act o1)) P').
Proof.
rewrite /kfvs_predict; case e: (sm_upd o x u dt) => [o2|//] /= [eo _ <-] ua pp pc pP; subst o2.
rewrite get_put2; try exact: aix_inj.
by do !apply: psdD; apply: psd_congr => //; exact: get2_psd.
Qed.
Theorem C48_ekfvs_predict_psd (S : NonlinSys R T n m p) (o o1 : sm S) x P u dt x' P' :
  ekfvs_predict o x P u dt = Ok (o1, x', P') -> uniq (sm_act o1) ->
  psd (sm_Rp o1) -> psd (sm_Rc o1) -> psd (get2 (@aix _ (sm_act o1)) (@aix _ (sm_act o1)) P) ->
  psd (get2 (@aix _ (sm_act o1)) (@aix _ (sm_act o1)) P').
Proof.
rewrite /ekfvs_predict; case e: (sm_upd o x u dt) => [o2|//] /= [eo _ <-] ua pp pc pP; subst o2.
rewrite get_put2; try exact: aix_inj.
by do !apply: psdD; apply: psd_congr => //; exact: get2_psd.
Qed.
Lemma vs_innov s d (f : 'I_s -> 'I_n) (fm : 'I_d -> 'I_k) P (C : 'M[R]_(k, n)) (Q : 'M[R]_k) :
  injective fm -> psd (get2 f f P) -> pd Q ->
  innov (get2 f f P) (get2 fm f C) (get2 fm fm Q) \in unitmx.
Proof. by move=> jm pP pQ; apply: pd_unit; apply: innov_pd => //; exact: get2_pd. Qed.
Theorem C48_kfvs_correct_psd (S : LinSys R T n m p) (M : LinMeas R T n k) (o : sm S) (q q1 : mm M) x P z dt :
  mm_upd q x dt = Ok q1 -> uniq (sm_act o) -> uniq (mm_act q1) ->
  let f := @aix _ (sm_act o) in psd (get2 f f P) -> pd (mm_cov q1) ->
  exists x' P', kfvs_correct o q x P z dt = Ok (q1, x', P') /\ psd (get2 f f P') /\ lle (get2 f f P') (get2 f f P).
Proof.
move=> e ua um f pP pQ; have jf : injective f := aix_inj ua; have jm := aix_inj um.
have u := vs_innov (lm_C q1) jm pP pQ.
rewrite /kfvs_correct e /= /kfvs_correct_with /inverse u /=; do 2 eexists; split; first reflexivity.
rewrite get_put2 //; have pQ' := pd_psd (get2_pd jm pQ).
by split; [apply: (post_psd pP pQ' u)|apply: (post_lle pP pQ' u)].
Qed.
Theorem C48_ekfvs_correct_psd (S : NonlinSys R T n m p) (M : NonlinMeas R T n k) (o : sm S) (q q1 : mm M) x P z dt :
  mm_upd q x dt = Ok q1 -> uniq (sm_act o) -> uniq (mm_act q1) ->
  let f := @aix _ (sm_act o) in psd (get2 f f P) -> pd (mm_cov q1) ->
  exists x' P', ekfvs_correct o q x P z dt = Ok (q1, x', P') /\ psd (get2 f f P') /\ lle (get2 f f P') (get2 f f P).
Proof.
move=> e ua um f pP pQ; have jf : injective f := aix_inj ua; have jm := aix_inj um.
have u := vs_innov (nm_H q1) jm pP pQ.
rewrite /ekfvs_correct e /= /ekfvs_correct_with /inverse u /=; do 2 eexists; split; first reflexivity.
rewrite get_put2 //; have pQ' := pd_psd (get2_pd jm pQ).
by split; [apply: (post_psd pP pQ' u)|apply: (post_lle pP pQ' u)].
Qed.

(** ** C47: the full covariance stays PSD if active and inactive states are uncorrelated *)
Definition uncorrelated (l : seq 'I_n) P : Prop := forall a b, ~ inactive l a -> inactive l b -> P a b = 0 /\ P b a = 0.
Lemma not_inactive (l : seq 'I_n) a : ~ inactive l a -> exists i, a = @aix _ l i.
Proof.
move=> h; have hm : a \in in_tuple (eff l).
  apply/negPn/negP => hn; apply: h; split; last by move: hn; case: l.
  by apply: contraNneq hn => ->; rewrite mem_enum.
by have /tnthP[i ei] := hm; exists i.
Qed.
Lemma active_aix (l : seq 'I_n) i : ~ inactive l (@aix _ l i).
Proof. by move=> [h1 h2]; have := aix_mem i; move: h1 h2; rewrite /eff; case: (l) i => //= a l' i _ /negP. Qed.
Lemma out_inactive (l : seq 'I_n) a : (forall i, @aix _ l i != a) -> inactive l a.
Proof.
move=> h; have hm : a \notin in_tuple (eff l) by apply/tnthP => -[i e]; have := h i; rewrite e eqxx.
move: hm; rewrite /inactive /eff /=; case: (l) => [|b l'] //=; by rewrite mem_enum.
Qed.

Section Full.
Variables (s : nat) (f : 'I_s -> 'I_n).
Hypothesis jf : injective f.
Definition keep : 'M[R]_n := diag_mx (\row_a ([forall i, f i != a]%:R)).
Lemma keep_tr : keep^T = keep. Proof. exact: tr_diag_mx. Qed.
Lemma keepE P a b : (keep *m P *m keep^T) a b = [forall i, f i != a]%:R * P a b * [forall i, f i != b]%:R.
Proof. by rewrite keep_tr mul_mx_diag mxE mul_diag_mx !mxE. Qed.
Lemma selE (N : 'M[R]_s) a b : ((sel R f)^T *m N *m sel R f) a b = \sum_i \sum_j (f i == a)%:R * N i j * (f j == b)%:R.
Proof.
rewrite mxE exchange_big /=; apply: eq_bigr => j _; rewrite mxE mulr_suml; apply: eq_bigr => i _.
by rewrite !mxE.
Qed.
Lemma put2_split (N : 'M[R]_s) P :
  (forall i b, (forall j, f j != b) -> P (f i) b = 0 /\ P b (f i) = 0) ->
  put2 f f N P = (sel R f)^T *m N *m ((sel R f)^T)^T + keep *m P *m keep^T.
Proof.
move=> hx; apply/matrixP => a b; rewrite trmxK mxE selE keepE.
case: (boolP [exists i, f i == a]) => [/existsP[i /eqP ea]|/existsPn ha].
- have na : [forall i, f i != a] = false by apply/negbTE/forallPn; exists i; rewrite ea eqxx.
  rewrite na !mul0r addr0 (bigD1 i) //= [X in _ + X]big1 ?addr0 => [|i' hi']; last first.
    by apply: big1 => j _; rewrite -ea (inj_eq jf) (negbTE hi') !mul0r.
  case: (boolP [exists j, f j == b]) => [/existsP[j /eqP eb]|/existsPn hb].
    rewrite (bigD1 j) //= big1 ?addr0 => [|j' hj']; last by rewrite -eb (inj_eq jf) (negbTE hj') mulr0.
    by rewrite ea eb !eqxx mul1r mulr1 -ea -eb put2_in.
  rewrite big1 => [|j _]; last by rewrite (negbTE (hb j)) mulr0.
  rewrite put2_out; last by apply/orP; right; apply/forallP.
  by rewrite -ea; have [->] := hx i b hb.
- have ya : [forall i, f i != a] by apply/forallP.
  rewrite ya mul1r big1 ?add0r => [|i _]; last by apply: big1 => j _; rewrite (negbTE (ha i)) !mul0r.
  rewrite put2_out ?ya //; case: (boolP [exists j, f j == b]) => [/existsP[j /eqP eb]|/existsPn hb].
    have -> : [forall i, f i != b] = false by apply/negbTE/forallPn; exists j; rewrite eb eqxx.
    by rewrite mulr0 -eb; have [_ ->] := hx j a ha.
  have -> : [forall i, f i != b] by apply/forallP.
  by rewrite mulr1.
Qed.
Lemma put2_psd (N : 'M[R]_s) P :
  (forall i b, (forall j, f j != b) -> P (f i) b = 0 /\ P b (f i) = 0) ->
  psd N -> psd P -> psd (put2 f f N P).
Proof. by move=> hx pN pP; rewrite put2_split //; apply: psdD; apply: psd_congr. Qed.
End Full.
Lemma uncorr_aix (l : seq 'I_n) P : uncorrelated l P ->
  forall i b, (forall j, @aix _ l j != b) -> P (@aix _ l i) b = 0 /\ P b (@aix _ l i) = 0.
Proof. by move=> h i b hb; apply: h; [exact: active_aix|exact: out_inactive]. Qed.

Theorem C47_kfvs_predict_partial (S : LinSys R T n m p) (o o1 : sm S) x P u dt x' P' :
  kfvs_predict o x P u dt = Ok (o1, x', P') -> uniq (sm_act o1) ->
  psd (sm_Rp o1) -> psd (sm_Rc o1) -> psd P -> uncorrelated (sm_act o1) P ->
  psd P' /\ uncorrelated (sm_act o1) P'.
Proof.
move=> e ua pp pc pP un; split; last first.
  move=> a b ha hb; rewrite (C46_kfvs_predict_cov_partial e (or_intror hb)) (C46_kfvs_predict_cov_partial e (or_introl hb)).
  exact: un.
have := C48_kfvs_predict_psd e ua pp pc (get2_psd _ pP).
move: e; rewrite /kfvs_predict; case: (sm_upd o x u dt) => [o2|//] /= [eo _ <-]; subst o2.
have jf := aix_inj ua; rewrite get_put2 // => pN.
by apply: put2_psd => //; exact: uncorr_aix.
Qed.
Theorem C47_ekfvs_predict_partial (S : NonlinSys R T n m p) (o o1 : sm S) x P u dt x' P' :
  ekfvs_predict o x P u dt = Ok (o1, x', P') -> uniq (sm_act o1) ->
  psd (sm_Rp o1) -> psd (sm_Rc o1) -> psd P -> uncorrelated (sm_act o1) P ->
  psd P' /\ uncorrelated (sm_act o1) P'.
Proof.
move=> e ua pp pc pP un; split; last first.
  move=> a b ha hb; rewrite (C46_ekfvs_predict_cov_partial e (or_intror hb)) (C46_ekfvs_predict_cov_partial e (or_introl hb)).
  exact: un.
have := C48_ekfvs_predict_psd e ua pp pc (get2_psd _ pP).
move: e; rewrite /ekfvs_predict; case: (sm_upd o x u dt) => [o2|//] /= [eo _ <-]; subst o2.
have jf := aix_inj ua; rewrite get_put2 // => pN.
by apply: put2_psd => //; exact: uncorr_aix.
Qed.
Theorem C47_kfvs_correct_partial (S : LinSys R T n m p) (M : LinMeas R T n k) (o : sm S) (q q1 : mm M) x P z dt x' P' :
  kfvs_correct o q x P z dt = Ok (q1, x', P') -> uniq (sm_act o) -> uniq (mm_act q1) ->
  pd (mm_cov q1) -> psd P -> uncorrelated (sm_act o) P ->
  psd P' /\ uncorrelated (sm_act o) P'.
Proof.
move=> e ua um pQ pP un.
have eu : mm_upd q x dt = Ok q1.
  by move: e; rewrite /kfvs_correct; case: (mm_upd q x dt) => [q2|//] /=; case: (kfvs_correct_with _ _ _ _ _ _ _) => [r|//] /= [->].
have [x2 [P2 [e2 [pN _]]]] := C48_kfvs_correct_psd z eu ua um (get2_psd _ pP) pQ.
move: (e2); rewrite e => -[_ ?]; subst P2 => {e2 x2}.
move: e; rewrite /kfvs_correct eu /= /kfvs_correct_with; case: (inverse _) => [inv|//] /= [_ eP].
have jf := aix_inj ua; split.
  by move: pN; rewrite -eP get_put2 // => pN; apply: put2_psd => //; exact: uncorr_aix.
move=> a b ha hb; have hb' : [forall i, @aix _ (sm_act o) i != b] by apply/forallP => i; exact: inactive_out.
by rewrite -eP !put2_out ?hb' ?orbT //; exact: un.
Qed.
Theorem C47_ekfvs_correct_partial (S : NonlinSys R T n m p) (M : NonlinMeas R T n k) (o : sm S) (q q1 : mm M) x P z dt x' P' :
  ekfvs_correct o q x P z dt = Ok (q1, x', P') -> uniq (sm_act o) -> uniq (mm_act q1) ->
  pd (mm_cov q1) -> psd P -> uncorrelated (sm_act o) P ->
  psd P' /\ uncorrelated (sm_act o) P'.
Proof.
move=> e ua um pQ pP un.
have eu : mm_upd q x dt = Ok q1.
  by move: e; rewrite /ekfvs_correct; case: (mm_upd q x dt) => [q2|//] /=; case: (ekfvs_correct_with _ _ _ _ _ _ _) => [r|//] /= [->].
have [x2 [P2 [e2 [pN _]]]] := C48_ekfvs_correct_psd z eu ua um (get2_psd _ pP) pQ.
move: (e2); rewrite e => -[_ ?]; subst P2 => {e2 x2}.
move: e; rewrite /ekfvs_correct eu /= /ekfvs_correct_with; case: (inverse _) => [inv|//] /= [_ eP].
have jf := aix_inj ua; split.
  by move: pN; rewrite -eP get_put2 // => pN; apply: put2_psd => //; exact: uncorr_aix.
move=> a b ha hb; have hb' : [forall i, @aix _ (sm_act o) i != b] by apply/forallP => i; exact: inactive_out.
by rewrite -eP !put2_out ?hb' ?orbT //; exact: un.
Qed.
End VS.

(** ** C46 and C47 fail *)
(** C46 as stated, for KalmanFilterVS predictions *)
Definition C46_claim (R : realFieldType) : Prop :=
  forall (n m p : nat) (S : LinSys R unit n m p) (o o1 : sm S) x P u x' P' a,
  (forall o, sm_add (s := S) o = @add_default R n) -> (forall o, sm_sub (s := S) o = @sub_default R n) ->
  kfvs_predict o x P u tt = Ok (o1, x', P') -> uniq (sm_act o1) -> inactive (sm_act o1) a -> x' a 0 = x a 0.
(** C47 as stated, for KalmanFilterVS predictions and corrections *)
Definition C47_claim_predict (R : realFieldType) : Prop :=
  forall (n m p : nat) (S : LinSys R unit n m p) (o o1 : sm S) x P u x' P',
  (forall o, sm_add (s := S) o = @add_default R n) -> (forall o, sm_sub (s := S) o = @sub_default R n) ->
  kfvs_predict o x P u tt = Ok (o1, x', P') -> uniq (sm_act o1) ->
  psd (sm_Rp o1) -> psd (sm_Rc o1) -> psd P -> psd P'.
Definition C47_claim_correct (R : realFieldType) : Prop :=
  forall (n m p k : nat) (S : LinSys R unit n m p) (M : LinMeas R unit n k) (o : sm S) (q q1 : mm M) x P z x' P',
  (forall o, sm_add (s := S) o = @add_default R n) -> (forall q, mm_sub (m := M) q = @sub_default R k) ->
  kfvs_correct o q x P z tt = Ok (q1, x', P') -> uniq (sm_act o) -> uniq (mm_act q1) ->
  pd (mm_cov q1) -> psd P -> psd P'.

Section Refute.
Variable R : realFieldType.
Add Field Rfield2 : (mc_field R).
Let i0 : 'I_2 := ord0.
Let i1 : 'I_2 := ord_max.
Let S2 (A : 'M[R]_2) : LinSys R unit 2 1 1 := const_sys unit A 0 0 0 0 [:: i0] [::].
Let M1 : LinMeas R unit 2 1 := const_meas unit (\row_j (j == i0)%:R) [:: ord0].
Let f : 'I_1 -> 'I_2 := @aix 2 [:: i0].
Lemma fE i : f i = i0. Proof. by rewrite /f /aix (tnth_nth i0) /=; case: i => -[]. Qed.
Let ones : 'M[R]_2 := const_mx 1.
Lemma ones_psd : psd ones.
Proof.
have -> : ones = (const_mx 1 : 'cV[R]_2) *m (const_mx 1 : 'cV[R]_2)^T.
  by apply/matrixP => i j; rewrite !mxE big_ord1 !mxE mulr1.
exact: psd_outer.
Qed.
Lemma inact1 : inactive [:: i0] i1. Proof. by []. Qed.
Lemma qf2 (A : 'M[R]_2) : qf A (\col_i (if i == i0 then 1 else -1)) = A i0 i0 - A i0 i1 - A i1 i0 + A i1 i1.
Proof.
rewrite /qf /bf mxE !big_ord_recl big_ord0 !mxE !big_ord_recl !big_ord0 !mxE /=.
have -> : lift ord0 ord0 = i1 :> 'I_2 by apply: val_inj.
rewrite -/i0; move: (A i0 i0) (A i0 i1) (A i1 i0) (A i1 i1) => a b c d; by mcring R.
Qed.

Theorem C46_refuted : ~ C46_claim R.
Proof.
move=> /(_ 2%N 1%N 1%N (S2 1%:M) 0 0 (const_mx 1) 0 0 _ _ i1 (fun=> erefl) (fun=> erefl) erefl erefl inact1).
move=> e; have h := @C46_kfvs_predict_zeroes R unit 2 1 1 (S2 1%:M) 0 0 (const_mx 1) 0 0 tt _ _ i1 erefl erefl inact1.
by move/eqP: (etrans (esym h) e); rewrite mxE eq_sym oner_eq0.
Qed.

Lemma jf1 : injective f. Proof. by move=> i j _; rewrite !ord1. Qed.
Lemma notpsd (N : 'M[R]_1) : N 0 0 < 1 -> ~ psd (put2 f f N ones).
Proof.
move=> h [_ /(_ (\col_i (if i == i0 then 1 else -1)))]; rewrite qf2.
have o1 : [forall i, f i != i1] by apply/forallP => i; rewrite fE.
have -> : put2 f f N ones i0 i0 = N 0 0 by rewrite -(fE 0) put2_in //; exact: jf1.
by rewrite !put2_out ?o1 ?orbT // !mxE -addrA addNr addr0 subr_ge0 leNgt h.
Qed.
(** A = 0: the active variance becomes 0, the covariance with the inactive state stays 1 *)
Theorem C47_refuted_predict : ~ C47_claim_predict R.
Proof.
have p0 : psd (0 : 'M[R]_1) := psd0 R 1.
move=> /(_ 2%N 1%N 1%N (S2 0) 0 0 0 ones 0 _ _ (fun=> erefl) (fun=> erefl) erefl erefl p0 p0 ones_psd).
apply: notpsd => /=.
have -> : get2 f f (0 : 'M[R]_2) = 0 by apply/matrixP => i j; rewrite !mxE.
have -> : get2 f id (0 : 'M[R]_(2, 1)) = 0 by apply/matrixP => i j; rewrite !mxE.
by rewrite !mul0mx !add0r mxE big1 ?ltr01 // => i _; rewrite [(_ *m _) _ _]mxE big1 ?mul0r // => j _; rewrite !mxE mul0r.
Qed.
(** variance 1 of the active state becomes 1/2 in a correction, its covariance with the inactive
    state stays 1 *)
Theorem C47_refuted_correct : ~ C47_claim_correct R.
Proof.
move=> H; have := H 2%N 1%N 1%N 1%N (S2 0) M1 0 1%:M 1%:M 0 ones 0.
have one_unit : 1%:M + 1%:M \in @unitmx R 1 by apply: pd_unit; apply: psd_pdD; [apply: pd_psd|]; exact: pd1.
rewrite /kfvs_correct /=; pose g : 'I_1 -> 'I_1 := @aix 1 [:: ord0]; rewrite -/f -/g => {}H.
have e : exists x', kfvs_correct_with (S := S2 0) (M := M1) f g 0 1%:M 0 ones 0 = Ok (x', put2 f f (1%:M - invmx (1%:M + 1%:M)) ones).
  rewrite /kfvs_correct_with /=.
  have -> : get2 f f ones = 1%:M by apply/matrixP => i j; rewrite !mxE !ord1.
  have -> : get2 g f (\row_j (j == i0)%:R) = 1%:M :> 'M[R]_1 by apply/matrixP => i j; rewrite !mxE !ord1 fE.
  have -> : get2 g g (1%:M : 'M[R]_1) = 1%:M by apply/matrixP => i j; rewrite !mxE !ord1.
  by rewrite trmx1 !mul1mx /inverse one_unit /= !mulmx1 mul1mx; eexists.
have [x' ex] := e; move: H; rewrite ex => /(_ _ _ (fun=> erefl) (fun=> erefl) erefl erefl erefl (pd1 R 1) ones_psd).
apply: notpsd; rewrite -raddfD invmx_scalar -raddfB !mxE eqxx mulr1n ltr_subl_addr ltr_addl invr_gt0.
by rewrite addr_gt0 // ltr01.
Qed.
End Refute.
