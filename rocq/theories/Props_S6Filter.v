(** C83, C84, C86: EKF and EKFVS running on the six_d_rates system model. *)
From Coq Require Import Reals Lra ZArith.
From mathcomp Require Import all_ssreflect all_algebra.
From Verif Require Import Outcome FB_Model FB_Time FB_Spec FB_Inv Props_Queue ActiveSets Geo Integration Props_Integration SixD Props_SixD Props_SixDArith S6_Real.
From Verif Require Import McRing LinAlg KF_Algebra KF_Model FB_Alg KF_Filter Props_KF RealField S6_Filter.
Set Implicit Arguments.
Unset Strict Implicit.
Unset Printing Implicit Defensive.
Import GRing.Theory Num.Theory Order.TTheory.
Local Open Scope ring_scope.

(** ** Specification *)
(** the gravity part of an estimate; its magnitude is the standard one (or it is the zero vector,
    the one vector that cannot be scaled to that magnitude) *)
Definition gravity (x : 'cV[R]_18) : V3 := seg (of_vec x) 9%nat.
Definition gravity_std (x : 'cV[R]_18) : Prop := norm (gravity x) = standard \/ gravity x = vzero.

Lemma seg_to_vec v i : (i + 2 < 18)%N -> seg (of_vec (to_vec 18 v)) i = seg v i.
Proof.
move=> h; rewrite /seg !of_to_vec //.
- by apply: leq_ltn_trans h; rewrite leq_add2l.
- by apply: leq_ltn_trans h; rewrite leq_addr.
Qed.

Section Api.
Variables (T : Type) (secs : T -> R).
(** a SixDRates object that was made by the constructor and used only through its public member
    functions (its own and those of the base classes) *)
Inductive s6_api : S6Obj -> Prop :=
  | api_new cj uc : s6_api (s6_obj_new cj uc)
  | api_update o x u dt o' : s6_api o -> s6_obj_upd secs o x u dt = Ok o' -> s6_api o'
  | api_setActiveStates o l : s6_api o -> s6_api (mkS6Obj (s6_setActiveStates (so_m o) l) (so_Rp o) (so_Rc o) (so_is o) (so_mk o))
  | api_setProcessCovariance o Rp : s6_api o -> s6_api (s6_setRp o Rp)
  | api_setControlCovariance o Rc : s6_api o -> s6_api (s6_setRc o Rc)
  | api_setIsStationary o f : s6_api o -> s6_api (mkS6Obj (so_m o) (so_Rp o) (so_Rc o) f (so_mk o))
  | api_setMakeStationary o f : s6_api o -> s6_api (mkS6Obj (so_m o) (so_Rp o) (so_Rc o) (so_is o) f).

(** the rows of the biases in the two Jacobians of such an object *)
Lemma api_rows o : s6_api o -> forall i j, (11 < i)%coq_nat ->
  s6_P (so_m o) i j = 0 /\ s6_G (so_m o) i j = (if Nat.eqb i j then 1 else 0).
Proof.
move=> h i j hi; elim: h => //=.
- move=> o1 x u dt o2 _ [IH1 IH2] [<-] /=; split.
    by case: (s6_uc _) => //; rewrite noise_bias_row.
  by case: (s6_cj _) => //; rewrite jacobian_bias_row.
Qed.
Lemma api_columns o : s6_api o -> forall i j, (j < 3)%coq_nat ->
  s6_P (so_m o) i (j + 3)%coq_nat = s6_P (so_m o) i j /\ s6_P (so_m o) i (j + 9)%coq_nat = s6_P (so_m o) i (j + 6)%coq_nat.
Proof.
move=> h; elim: h => //=.
move=> o1 x u dt o2 _ IH [<-] /=.
by case: (s6_uc _) => //; apply: noise_columns.
Qed.
End Api.

Section Step.
Variables (T : Type) (secs : T -> R).
Let S := six_d_sys secs.

Lemma unit_row_mul n k (A : 'M[R]_n) (B : 'M[R]_(n, k)) (i : 'I_n) j : (forall l, A i l = (i == l)%:R) -> (A *m B) i j = B i j.
Proof.
move=> h; rewrite mxE (bigD1 i) //= h eqxx mul1r big1 ?addr0 // => l hl.
by rewrite h eq_sym (negbTE hl) mul0r.
Qed.
Lemma addE n k (A B : 'M[R]_(n, k)) i j : (A + B) i j = A i j + B i j.
Proof. by rewrite mxE. Qed.
Lemma zero_row_mul n p k (A : 'M[R]_(n, p)) (B : 'M[R]_(p, k)) (i : 'I_n) j : (forall l, A i l = 0) -> (A *m B) i j = 0.
Proof. by move=> h; rewrite mxE big1 // => l _; rewrite h mul0r. Qed.

(** ** C86: the process noise of the biases.
    The constructor's comment lists "linear bias jerk" and "angular bias acceleration" among the
    components of the process noise (system_models/six_d_rates.h:12-18).  The claim: with positive
    definite process noise, predicting ahead makes the filter less certain about the biases. *)
Definition C86_claim : Prop := forall (o o' : S6Obj) x P u dt x' (P' : 'M[R]_18), s6_api secs o -> pd (so_Rp o) -> psd P ->
  s6_cj (so_m o) = true -> s6_uc (so_m o) = true -> (0 < secs dt)%R ->
  ekf_predict (S := S) o x P u dt = Ok (o', x', P') -> forall i : 'I_18, (12 <= i)%N -> P i i < P' i i.

(** what holds: prediction changes neither the biases nor any of their variances and covariances *)
Theorem C86_predict_partial (o o' : S6Obj) x P u dt x' (P' : 'M[R]_18) : s6_api secs o ->
  ekf_predict (S := S) o x P u dt = Ok (o', x', P') ->
  forall i j : 'I_18, (12 <= i)%N -> (12 <= j)%N -> x' i 0 = x i 0 /\ P' i j = P i j.
Proof.
move=> api h i j hi hj.
case: (obind_ok _ _ _ h) => o1 [e [_ <- <-]].
have api1 : s6_api secs o1 by apply: api_update api e.
have rows k : (12 <= k)%N -> (11 < k)%coq_nat by move/ssrnat.ltP.
split.
  rewrite mxE; case: e => <- /=.
  by rewrite predict_bias; [rewrite /of_vec valK|apply: rows].
have g (a b : 'I_18) : (12 <= a)%N -> (@ns_G _ _ _ _ _ S o1) a b = (a == b)%:R.
  move=> ha; rewrite mxE; have [_ ->] := api_rows api1 b (rows _ ha).
  case: eqP => [<-|ne]; first by rewrite PeanoNat.Nat.eqb_refl.
  by rewrite (proj2 (PeanoNat.Nat.eqb_neq _ _)) // => e'; apply: ne; apply: val_inj.
have w (a : 'I_18) (b : 'I_15) : (12 <= a)%N -> sm_P (s := S) o1 a b = 0.
  by move=> ha; rewrite mxE; have [-> _] := api_rows api1 b (rows _ ha).
rewrite !addE -!mulmxA (zero_row_mul (A := sm_P (s := S) o1)); last by move=> l; apply: w.
rewrite (zero_row_mul (A := sm_V (s := S) o1)); last by move=> l; rewrite mxE.
rewrite !addr0 unit_row_mul; last by move=> l; apply: g.
rewrite -{1}[P]trmxK -trmx_mul mxE unit_row_mul ?mxE // => l; exact: g.
Qed.
Theorem C86_refuted (dt : T) : (0 < secs dt)%R -> ~ C86_claim.
Proof.
move=> hdt H.
pose o := s6_setRp (s6_obj_new true true) 1%:M.
have api : s6_api secs o by apply: api_setProcessCovariance; apply: api_new.
have [[[o1 x1] P1] e] : exists r, ekf_predict (S := S) o 0 (0 : 'M[R]_18) 0 dt = Ok r by eexists.
pose i : 'I_18 := @Ordinal 18 12 isT.
have [_ ei] := @C86_predict_partial o o1 _ _ _ dt x1 P1 api e i i isT isT.
have /= := H o o1 _ _ _ dt x1 P1 api (pd1 _ _) (psd0 _ _) erefl erefl hdt e i isT.
by rewrite ei ltxx.
Qed.
(** where that noise goes instead: its columns are those of the linear jerk and of the angular
    acceleration, so it acts on velocity, acceleration and rates exactly as they do *)
Theorem C86_columns_partial (o : S6Obj) (i : 'I_18) (j a b c : 'I_15) : s6_api secs o ->
  (j < 3)%N -> a = (j + 3)%N :> nat -> b = (j + 6)%N :> nat -> c = (j + 9)%N :> nat ->
  sm_P (s := S) o i a = sm_P (s := S) o i j /\ sm_P (s := S) o i c = sm_P (s := S) o i b.
Proof.
move=> api hj ea eb ec; rewrite !mxE ea eb ec.
by apply: (api_columns api); apply/ssrnat.ltP.
Qed.
End Step.

(** ** Runs *)
Section Run.
Variables (TT : TimeOps) (secs : TT -> R).
Notation S := (six_d_sys secs).
Notation O := (six_d_ops secs).
(** any measurement models, of any sizes *)
Variables (M : forall k, NonlinMeas R_realFieldType TT 18 k) (MO : forall k, MeasOps (M k)).

(** the calls considered: estimates given to initialize satisfy [Init], measurement covariances
    satisfy [Qok], and the user changes the model objects only within [SI] and [IM] *)
Definition s6_call (F : FilterAlg R_realFieldType TT 18 0) (Init : 'cV[R]_18 -> 'M[R]_18 -> Prop) (Qok : forall k, 'M[R]_k -> Prop)
    (SI : fa_sys F -> Prop) (IM : forall k, fa_meas F k -> Prop) (o : Op (E := alg_env F)) : Prop :=
  match o with
  | OpInit x P _ => exists (x' : 'cV[R]_18) (P' : 'M[R]_18), x = dv (R := R_realFieldType) x' /\ P = dm (R := R_realFieldType) P' /\ Init x' P'
  | OpCorrect _ Q _ _ | OpEnqM _ Q _ _ => Qok (projT1 Q) (projT2 Q)
  | OpSys f => forall sy, SI sy -> SI (f sy)
  | OpMeas f => forall ms : list (DMeas F), List.Forall (fun q => IM (projT1 q) (projT2 q)) ms -> List.Forall (fun q => IM (projT1 q) (projT2 q)) (f ms)
  | _ => True
  end.

Lemma s6_reachable (F : FilterAlg R_realFieldType TT 18 0) G SI (MI MC : forall k, fa_meas F k -> Prop) Qok
    (L : Lib (alg_env F)) sy (ms : list (DMeas F)) (x : 'cV[R]_18) (P : 'M[R]_18) (t : TT) ops s :
  (forall l i, List.In i (lib_sort L l) -> List.In i l) ->
  AlgPreserved G SI MI MC (fun _ => True) Qok ->
  SI sy -> List.Forall (fun q => MI (projT1 q) (projT2 q)) ms -> G x P -> List.Forall (s6_call G Qok SI MI) ops ->
  run L ops (new_filter (E := alg_env F) sy ms (dv x) (dm P) t) = Ok s ->
  exists (x' : 'cV[R]_18) (P' : 'M[R]_18), getState s = dv (R := R_realFieldType) x' /\ getCovariance s = dm (R := R_realFieldType) P' /\ G x' P'.
Proof.
move=> hs hp si mi pP ho hr.
apply: (@C30_invariant _ (alg_env F) L _ _ _ _ _ _ _ _ _ _ _ _ _ hs (alg_preserved hp) si mi (GoodD_dm (G := G) pP) _ hr).
by elim: ho => [|o l h1 _ IH]; constructor => //; case: o h1.
Qed.

(** what is asked of the measurement classes: [IM] is an invariant of their objects under which the
    make-stationary function keeps [G] *)
Record meas_keeps (G : 'cV[R]_18 -> 'M[R]_18 -> Prop) (IM : forall k, mm (M k) -> Prop) : Prop := {
  mk_setCov : forall k (q : mm (M k)) Q, IM k q -> IM k (mo_setCov (MO k) q Q);
  mk_upd : forall k (q : mm (M k)) x dt q', IM k q -> mm_upd q x dt = Ok q' -> IM k q';
  mk_proc : forall k (q : mm (M k)) x z, IM k q -> IM k (mo_proc (MO k) q x z);
  mk_make : forall k (q : mm (M k)) x P, IM k q -> G x P -> G (mo_make (MO k) q x P).1 (mo_make (MO k) q x P).2
}.
(** ... and of their covariances *)
Record meas_cov_ok (IM : forall k, mm (M k) -> Prop) : Prop := {
  mc_setCov : forall k (q : mm (M k)) Q, mm_cov (mo_setCov (MO k) q Q) = Q;
  mc_upd : forall k (q : mm (M k)) x dt q', IM k q -> mm_upd q x dt = Ok q' -> pd (mm_cov q) -> pd (mm_cov q');
  mc_proc : forall k (q : mm (M k)) x z, IM k q -> pd (mm_cov q) -> pd (mm_cov (mo_proc (MO k) q x z))
}.

(** ** C84: gravity.  [keeps G o] : the make-stationary function of a model object, if it has one,
    keeps G *)
Definition keeps (G : 'cV[R]_18 -> 'M[R]_18 -> Prop) (o : S6Obj) : Prop :=
  if so_mk o is Some f then forall x P, G x P -> G (f x P).1 (f x P).2 else True.
Definition gstd (x : 'cV[R]_18) (_ : 'M[R]_18) : Prop := gravity_std x.

Lemma gravity_add (a b : vecn) : gravity_std (to_vec 18 (s6_addState a b)).
Proof. by rewrite /gravity_std /gravity seg_to_vec //; apply: addState_gravity. Qed.
Lemma gravity_g (o o' : S6Obj) x u dt : gravity_std x -> s6_obj_upd secs o x u dt = Ok o' -> gravity_std (to_vec 18 (s6_g (so_m o'))).
Proof. by move=> h [<-] /=; rewrite /gravity_std /gravity seg_to_vec //; apply: predict_keeps_gravity. Qed.
Lemma keeps_make G o x P : keeps G o -> G x P -> G (so_make O o x P).1 (so_make O o x P).2.
Proof. by rewrite /keeps /=; case: (so_mk o) => //= f h; apply: h. Qed.
Lemma keeps_upd G (o o' : S6Obj) x u dt : s6_obj_upd secs o x u dt = Ok o' -> keeps G o -> keeps G o'.
Proof. by move=> [<-]. Qed.

Lemma ekf_keeps_gravity (IM : forall k, mm (M k) -> Prop) : meas_keeps gstd IM ->
  AlgPreserved (F := ekf_alg O MO) gstd (keeps gstd) IM IM (fun _ => True) (fun _ _ => True).
Proof.
move=> [m1 m2 m3 m4]; split => //=.
- by move=> sy x P; apply: keeps_make.
- move=> sy x P u dt sy' x' P' hk hg e; case: (obind_ok _ _ _ e) => o1 [eu [<- <- _]].
  by split; [apply: keeps_upd eu _ | apply: gravity_g eu].
- by move=> k q Q i _; apply: m1.
- move=> k sy q x P z dt sy' q' x' P' hs iq hg e; case: (obind_ok _ _ _ e) => [[[q1 x1] P1]] [ec [<- <- <- _]].
  case: (obind_ok _ _ _ ec) => q2 [eu {}ec]; case: (obind_ok _ _ _ ec) => inv [_ [<- <- _]].
  by do 2 split => //; [apply: m2 eu | exact: gravity_add].
Qed.
Lemma ekfvs_keeps_gravity (IM : forall k, mm (M k) -> Prop) : meas_keeps gstd IM ->
  AlgPreserved (F := ekfvs_alg O MO) gstd (keeps gstd) IM IM (fun _ => True) (fun _ _ => True).
Proof.
move=> [m1 m2 m3 m4]; split => //=.
- by move=> sy x P; apply: keeps_make.
- move=> sy x P u dt sy' x' P' hk hg e; case: (obind_ok _ _ _ e) => o1 [eu [<- <- _]].
  by split; [apply: keeps_upd eu _ | apply: gravity_g eu].
- by move=> k q Q i _; apply: m1.
- move=> k sy q x P z dt sy' q' x' P' hs iq hg e; case: (obind_ok _ _ _ e) => [[[q1 x1] P1]] [ec [<- <- <- _]].
  case: (obind_ok _ _ _ ec) => q2 [eu {}ec]; case: (obind_ok _ _ _ ec) => [[x2 P2]] [{}ec [<- <- _]].
  case: (obind_ok _ _ _ ec) => inv [_ [<- _]].
  by do 2 split => //; [apply: m2 eu | exact: gravity_add].
Qed.
Theorem C84_ekf (IM : forall k, mm (M k) -> Prop) (L : Lib (alg_env (ekf_alg O MO))) (sy : S6Obj) (ms : list (DMeas (ekf_alg O MO))) (x : 'cV[R]_18) (P : 'M[R]_18) (t : TT) ops s :
  (forall l i, List.In i (lib_sort L l) -> List.In i l) ->
  meas_keeps gstd IM -> List.Forall (fun q => IM (projT1 q) (projT2 q)) ms ->
  keeps gstd sy -> gravity_std x ->
  List.Forall (s6_call (F := ekf_alg O MO) gstd (fun _ _ => True) (keeps gstd) IM) ops ->
  run L ops (new_filter (E := alg_env (ekf_alg O MO)) sy ms (dv x) (dm P) t) = Ok s ->
  exists x' : 'cV[R]_18, getState s = dv (R := R_realFieldType) x' /\ gravity_std x'.
Proof.
move=> hs hm hms hk hx ho hr.
have [x' [P' [e [_ h]]]] := s6_reachable (F := ekf_alg O MO) (G := gstd) hs (ekf_keeps_gravity hm) hk hms hx ho hr.
by exists x'.
Qed.
Theorem C84_ekfvs (IM : forall k, mm (M k) -> Prop) (L : Lib (alg_env (ekfvs_alg O MO))) (sy : S6Obj) (ms : list (DMeas (ekfvs_alg O MO))) (x : 'cV[R]_18) (P : 'M[R]_18) (t : TT) ops s :
  (forall l i, List.In i (lib_sort L l) -> List.In i l) ->
  meas_keeps gstd IM -> List.Forall (fun q => IM (projT1 q) (projT2 q)) ms ->
  keeps gstd sy -> gravity_std x ->
  List.Forall (s6_call (F := ekfvs_alg O MO) gstd (fun _ _ => True) (keeps gstd) IM) ops ->
  run L ops (new_filter (E := alg_env (ekfvs_alg O MO)) sy ms (dv x) (dm P) t) = Ok s ->
  exists x' : 'cV[R]_18, getState s = dv (R := R_realFieldType) x' /\ gravity_std x'.
Proof.
move=> hs hm hms hk hx ho hr.
have [x' [P' [e [_ h]]]] := s6_reachable (F := ekfvs_alg O MO) (G := gstd) hs (ekfvs_keeps_gravity hm) hk hms hx ho hr.
by exists x'.
Qed.

(** ** C83: covariances; the variances of the biases never exceed those the filter was given *)
Definition cov_ok (b : 'I_18 -> R) (_ : 'cV[R]_18) (P : 'M[R]_18) : Prop := psd P /\ forall i : 'I_18, (12 <= i)%N -> P i i <= b i.
Definition s6_si (b : 'I_18 -> R) (o : S6Obj) : Prop := [/\ s6_api secs o, psd (so_Rp o) & keeps (cov_ok b) o].
Lemma ekf_keeps_cov b (IM : forall k, mm (M k) -> Prop) : meas_keeps (cov_ok b) IM -> meas_cov_ok IM ->
  AlgPreserved (F := ekf_alg O MO) (cov_ok b) (s6_si b) IM (fun k (q : mm (M k)) => IM k q /\ pd (mm_cov q)) (fun _ => True) (fun k => @pd R_realFieldType k).
Proof.
move=> [m1 m2 m3 m4] [c1 c2 c3]; split => //=.
- by move=> sy Rc [h1 h2 h3] _; split => //; apply: api_setControlCovariance.
- by move=> sy x P [_ _ h]; apply: keeps_make.
- move=> sy x P u dt sy' x' P' [api pR hkp] [pP hb] e; have e' := e.
  case: (obind_ok _ _ _ e) => o1 [eu [<- _ eP]].
  have eR : so_Rp o1 = so_Rp sy by case: eu => <-.
  split; first by split; [apply: api_update api eu | rewrite eR | apply: keeps_upd eu hkp].
  split; last by move=> i hi; have [_ ->] := C86_predict_partial api e' hi hi; apply: hb.
  rewrite -eP; apply: psdD; first by apply: psdD; apply: psd_congr => //; rewrite eR.
  by rewrite !mul0mx; apply: psd0.
- by move=> k q Q i pQ; split; [apply: m1|rewrite c1].
- by move=> k q [].
- by move=> k q x z [i pq]; split; [apply: m3|apply: c3].
- by move=> k q x P [i _]; apply: m4.
- move=> k sy q x P z dt sy' q' x' P' hs [iq pq] [pP hb] e; case: (obind_ok _ _ _ e) => [[[q1 x1] P1]] [ec [<- <- _ <-]].
  case: (obind_ok _ _ _ (ec)) => q2 [eu _].
  have iq2 := m2 _ _ _ _ _ iq eu; have pq2 := c2 _ _ _ _ _ iq eu pq.
  have [x3 [P3 [e3 [p3 l3]]]] := C38_ekf (S := S) sy z eu pP pq2.
  move: ec; rewrite e3 => -[<- _ <-]; do 3 split => //.
  by move=> i hi; apply: le_trans (hb i hi); apply: lle_diag.
Qed.
Theorem C83_ekf (b : 'I_18 -> R) (IM : forall k, mm (M k) -> Prop) (L : Lib (alg_env (ekf_alg O MO))) (sy : S6Obj) (ms : list (DMeas (ekf_alg O MO)))
    (x : 'cV[R]_18) (P : 'M[R]_18) (t : TT) ops s :
  (forall l i, List.In i (lib_sort L l) -> List.In i l) ->
  meas_keeps (cov_ok b) IM -> meas_cov_ok IM -> List.Forall (fun q => IM (projT1 q) (projT2 q)) ms ->
  s6_api secs sy -> psd (so_Rp sy) -> keeps (cov_ok b) sy ->
  psd P -> (forall i : 'I_18, (12 <= i)%N -> P i i <= b i) ->
  List.Forall (s6_call (F := ekf_alg O MO) (cov_ok b) (fun k => @pd R_realFieldType k) (s6_si b) IM) ops ->
  run L ops (new_filter (E := alg_env (ekf_alg O MO)) sy ms (dv x) (dm P) t) = Ok s ->
  exists P' : 'M[R]_18, getCovariance s = dm (R := R_realFieldType) P' /\ psd P' /\ forall i : 'I_18, (12 <= i)%N -> P' i i <= b i.
Proof.
move=> hs hm hc hms h1 h2 h3 pP hb ho hr.
have [x' [P' [_ [e h]]]] := s6_reachable (F := ekf_alg O MO) (G := cov_ok b) hs (ekf_keeps_cov hm hc) (And3 h1 h2 h3) hms (conj pP hb) ho hr.
by exists P'.
Qed.
End Run.

(** ** The classes of the library and the program examples/six_d_rates_example.cpp meet the
    hypotheses *)
Section Witness.
Variables (TT : TimeOps) (secs : TT -> R).
(** six_d_rates_example.cpp:61-65, makeStationary *)
Definition ex_make (x : 'cV[R]_18) (P : 'M[R]_18) : 'cV[R]_18 * 'M[R]_18 :=
  (to_vec 18 (put_seg (put_seg (put_seg (of_vec x) s6_VX vzero) s6_AX vzero) s6_VPHI vzero), P).
Lemma ex_make_keeps b x P : (gstd x P -> gstd (ex_make x P).1 (ex_make x P).2) /\ (cov_ok b x P -> cov_ok b (ex_make x P).1 (ex_make x P).2).
Proof.
split => // h; rewrite /gstd /gravity_std /gravity seg_to_vec //.
Qed.
(** SixDRatesImu and SixDRatesOdom objects, with that function or none *)
Definition lib_inv k (q : mm (six_d_meas TT k)) : Prop := mo_mk q = None \/ mo_mk q = Some ex_make.
Lemma lib_classes (G : 'cV[R]_18 -> 'M[R]_18 -> Prop) : (forall x P, G x P -> G (ex_make x P).1 (ex_make x P).2) ->
  meas_keeps (six_d_mops TT) G lib_inv /\ meas_cov_ok (six_d_mops TT) lib_inv.
Proof.
move=> hG; split; split => //=.
- by move=> k q x dt q' i [<-].
- by move=> k q x P [] -> //; apply: hG.
- by move=> k q x dt q' i [<-].
Qed.
Example S6_nonvacuous b : (forall i, 0 <= b i) ->
  meas_keeps (six_d_mops TT) gstd lib_inv /\ meas_keeps (six_d_mops TT) (cov_ok b) lib_inv /\ meas_cov_ok (six_d_mops TT) lib_inv
  /\ lib_inv (k := 6) (imu_obj (imu_new true)) /\ lib_inv (k := 4) (odom_obj (odom_new true))
  /\ (let sy := mkS6Obj (s6_new true true) 1%:M 0 None (Some ex_make) in
      s6_api secs sy /\ psd (so_Rp sy) /\ keeps gstd sy /\ keeps (cov_ok b) sy)
  /\ gravity_std (to_vec 18 (put_seg (fun _ => 0%R) s6_GX (mkV 0 0 g_std))) /\ cov_ok b 0 0.
Proof.
move=> hb; have k1 := @ex_make_keeps b.
have [a1 a2] := lib_classes (G := gstd) (fun x P => proj1 (k1 x P)).
have [b1 b2] := lib_classes (G := cov_ok b) (fun x P => proj2 (k1 x P)).
do 3 split => //; split; first by left.
split; first by left.
split.
  split; first by apply: (@api_setMakeStationary _ _ (s6_setRp (s6_obj_new true true) 1%:M)); apply: api_setProcessCovariance; apply: api_new.
  split; first by apply: pd_psd; apply: pd1.
  by split=> x P; apply k1.
split; last by split; [apply: psd0|move=> i _; rewrite mxE; apply: hb].
left; rewrite /gravity seg_to_vec // seg_put_seg.
by rewrite norm_z //; apply: Rlt_le; apply: gstd_pos.
Qed.
End Witness.
