(** FilterBase instantiated with a filter algorithm on real vectors: the [Env] of FB_Model.v for a
    system of dimension n with m controls.  Vectors and matrices of FilterBase have run-time
    sizes; the algorithms of KF_Model.v have sizes in types; a mismatch is [Ub ub_dim] (the
    assertions of system_model.cpp:19-20, 69, 74, measurement_model.cpp:15, 64 and of Eigen). *)
From mathcomp Require Import all_ssreflect all_algebra.
From Verif Require Import Outcome FB_Model FB_Spec FB_Inv KF_Model.
Set Implicit Arguments.
Unset Strict Implicit.
Unset Printing Implicit Defensive.
Import GRing.Theory.
Local Open Scope ring_scope.

Section Alg.
Variables (R : realFieldType) (TT : TimeOps).

Definition DV : Type := {d : nat & 'cV[R]_d}.      (* Eigen::VectorXd *)
Definition DM : Type := {d : nat & 'M[R]_d}.       (* square Eigen::MatrixXd *)
Definition dv d (x : 'cV[R]_d) : DV := existT (fun d => 'cV[R]_d) d x.
Definition dm d (P : 'M[R]_d) : DM := existT (fun d => 'M[R]_d) d P.
Definition vec_of d (v : DV) : outcome 'cV[R]_d :=
  match projT1 v =P d with ReflectT e => Ok (castmx (e, erefl) (projT2 v)) | ReflectF _ => Ub ub_dim end.
Definition mat_of d (M : DM) : outcome 'M[R]_d :=
  match projT1 M =P d with ReflectT e => Ok (castmx (e, e) (projT2 M)) | ReflectF _ => Ub ub_dim end.

(** a filter: the system model object (with data members of the derived filter) and a family of
    measurement model objects, with the member functions FilterBase uses.  isStationary /
    makeStationary are user-defined functions (filter_model.h:133-137); processStationaryInput is
    a virtual member. *)
Record FilterAlg (n m : nat) : Type := {
  fa_sys : Type;
  fa_Rc : fa_sys -> 'M[R]_m;
  fa_setRc : fa_sys -> 'M[R]_m -> fa_sys;
  fa_check : fa_sys -> bool;
  fa_isStat : fa_sys -> 'cV[R]_n -> DV -> bool;
  fa_proc : fa_sys -> 'cV[R]_n -> DV -> fa_sys;
  fa_make : fa_sys -> 'cV[R]_n -> 'M[R]_n -> 'cV[R]_n * 'M[R]_n;
  fa_predict : fa_sys -> 'cV[R]_n -> 'M[R]_n -> 'cV[R]_m -> TT -> outcome (fa_sys * 'cV[R]_n * 'M[R]_n);
  fa_meas : nat -> Type;
  fa_setCov : forall k, fa_meas k -> 'M[R]_k -> fa_meas k;
  fa_mcheck : forall k, fa_meas k -> bool;
  fa_misStat : forall k, fa_meas k -> 'cV[R]_n -> 'cV[R]_k -> bool;
  fa_mproc : forall k, fa_meas k -> 'cV[R]_n -> 'cV[R]_k -> fa_meas k;
  fa_mmake : forall k, fa_meas k -> 'cV[R]_n -> 'M[R]_n -> 'cV[R]_n * 'M[R]_n;
  fa_correct : forall k, fa_sys -> fa_meas k -> 'cV[R]_n -> 'M[R]_n -> 'cV[R]_k -> TT ->
               outcome (fa_sys * fa_meas k * 'cV[R]_n * 'M[R]_n)
}.

Variables (n m : nat) (F : FilterAlg n m).
Definition DMeas : Type := {k : nat & fa_meas F k}.
Definition dmeas k (q : fa_meas F k) : DMeas := existT (fun k => fa_meas F k) k q.

Definition alg_env : Env TT := {|
  V := DV;
  Mx := DM;
  vsize := fun v => projT1 v;
  vempty := dv (0 : 'cV[R]_0);
  vzero := fun d => dv (0 : 'cV[R]_d);
  mempty := dm (0 : 'M[R]_0);
  Sys := fa_sys F;
  Meas := DMeas;
  s_csize := fun _ => m;
  s_Rc := fun sy => dm (fa_Rc sy);
  s_setRc := fun sy M => let* Rc := mat_of m M in Ok (fa_setRc sy Rc);
  s_check := @fa_check _ _ F;
  s_isStat := fun sy x d => let* x := vec_of n x in Ok (fa_isStat sy x d);
  s_proc := fun sy x d => let* x := vec_of n x in Ok (fa_proc sy x d);
  s_make := fun sy x P => let* x := vec_of n x in let* P := mat_of n P in
    let r := fa_make sy x P in Ok (dv r.1, dm r.2);
  m_setCov := fun q Q => let* Q := mat_of (projT1 q) Q in Ok (dmeas (fa_setCov (projT2 q) Q));
  m_check := fun q => fa_mcheck (projT2 q);
  m_isStat := fun q x z => let* x := vec_of n x in let* z := vec_of (projT1 q) z in Ok (fa_misStat (projT2 q) x z);
  m_proc := fun q x z => let* x := vec_of n x in let* z := vec_of (projT1 q) z in Ok (dmeas (fa_mproc (projT2 q) x z));
  m_make := fun q x P => let* x := vec_of n x in let* P := mat_of n P in
    let r := fa_mmake (projT2 q) x P in Ok (dv r.1, dm r.2);
  my_predict := fun sy x P u dt =>
    let* x := vec_of n x in let* P := mat_of n P in let* u := vec_of m u in
    let* r := fa_predict sy x P u dt in Ok (r.1.1, dv r.1.2, dm r.2);
  my_correct := fun sy q x P z dt =>
    let* x := vec_of n x in let* P := mat_of n P in let* z := vec_of (projT1 q) z in
    let* r := fa_correct sy (projT2 q) x P z dt in Ok (r.1.1.1, dmeas r.1.1.2, dv r.1.2, dm r.2)
|}.

Lemma vec_of_dv d (x : 'cV[R]_d) : vec_of d (dv x) = Ok x.
Proof. by rewrite /vec_of /=; case: eqP => // e; rewrite (eq_irrelevance e erefl) castmx_id. Qed.
Lemma mat_of_dm d (P : 'M[R]_d) : mat_of d (dm P) = Ok P.
Proof. by rewrite /mat_of /=; case: eqP => // e; rewrite (eq_irrelevance e erefl) castmx_id. Qed.
Lemma mat_of_ok d M P : mat_of d M = Ok P -> M = dm P.
Proof.
rewrite /mat_of; case: eqP => // e [<-]; case: M e => d' M /= e; subst d'.
by rewrite castmx_id.
Qed.
Lemma vec_of_ok d v x : vec_of d v = Ok x -> v = dv x.
Proof.
rewrite /vec_of; case: eqP => // e [<-]; case: v e => d' M /= e; subst d'.
by rewrite castmx_id.
Qed.

(** a property [G] of the estimate and its covariance, of size n, kept by the algorithm; [SI]/[MI] are invariants of
    the model objects, [RcOk]/[QOk] the admissible covariances *)
Variables (G : 'cV[R]_n -> 'M[R]_n -> Prop) (SI : fa_sys F -> Prop) (MI MC : forall k, fa_meas F k -> Prop)
          (RcOk : 'M[R]_m -> Prop) (QOk : forall k, 'M[R]_k -> Prop).
Record AlgPreserved : Prop := {
  ap_Rc : forall sy, SI sy -> RcOk (fa_Rc sy);
  ap_setRc : forall sy Rc, SI sy -> RcOk Rc -> SI (fa_setRc sy Rc);
  ap_proc : forall sy x d, SI sy -> SI (fa_proc sy x d);
  ap_make : forall sy x P, SI sy -> G x P -> G (fa_make sy x P).1 (fa_make sy x P).2;
  ap_predict : forall sy x P u dt sy' x' P', SI sy -> G x P -> fa_predict sy x P u dt = Ok (sy', x', P') -> SI sy' /\ G x' P';
  ap_setCov : forall k (q : fa_meas F k) Q, MI q -> QOk Q -> MC (fa_setCov q Q);
  ap_MC : forall k (q : fa_meas F k), MC q -> MI q;
  ap_mproc : forall k (q : fa_meas F k) x z, MC q -> MC (fa_mproc q x z);
  ap_mmake : forall k (q : fa_meas F k) x P, MC q -> G x P -> G (fa_mmake q x P).1 (fa_mmake q x P).2;
  ap_correct : forall k sy (q : fa_meas F k) x P z dt sy' q' x' P', SI sy -> MC q -> G x P ->
    fa_correct sy q x P z dt = Ok (sy', q', x', P') -> SI sy' /\ MI q' /\ G x' P'
}.

(** properties of run-time sized objects *)
Definition GoodD (v : DV) (M : DM) : Prop := exists (x : 'cV[R]_n) (P : 'M[R]_n), v = dv x /\ M = dm P /\ G x P.
Definition RcOkD (P : DM) : Prop := match projT1 P =P m with ReflectT e => RcOk (castmx (e, e) (projT2 P)) | _ => True end.
Definition QOkD (P : DM) : Prop := QOk (projT2 P).
Definition MID (q : DMeas) : Prop := MI (projT2 q).
Definition MCD (q : DMeas) : Prop := MC (projT2 q).

Lemma dm_inj d : injective (@dm d).
Proof. by move=> P P' e; have := mat_of_dm P; rewrite e mat_of_dm => -[]. Qed.
Lemma dv_inj d : injective (@dv d).
Proof. by move=> x x' e; have := vec_of_dv x; rewrite e vec_of_dv => -[]. Qed.
Lemma GoodD_dm (x : 'cV[R]_n) (P : 'M[R]_n) : G x P -> GoodD (dv x) (dm P).
Proof. by exists x, P. Qed.
Lemma GoodD_of (x : 'cV[R]_n) (P : 'M[R]_n) : GoodD (dv x) (dm P) -> G x P.
Proof. by case=> x' [P' [/dv_inj -> [/dm_inj -> h]]]. Qed.
Lemma RcOkD_dm (P : 'M[R]_m) : RcOkD (dm P) <-> RcOk P.
Proof. by rewrite /RcOkD /=; case: eqP => // e; rewrite (eq_irrelevance e erefl) castmx_id. Qed.

Lemma alg_preserved : AlgPreserved -> Preserved (E := alg_env) GoodD SI MID MCD RcOkD QOkD.
Proof.
case=> [aRc asetRc aproc amake apredict asetCov aMC amproc ammake acorrect]; split => /=.
- by [].
- by move=> sy h; apply/RcOkD_dm; apply: aRc.
- move=> sy M sy' h hR e; case: (obind_ok _ _ _ e) => P [/mat_of_ok eM [<-]].
  by apply: asetRc => //; move: hR; rewrite eM => /RcOkD_dm.
- move=> sy v M u dt sy' v' M' h g e; case: (obind_ok _ _ _ e) => x [/vec_of_ok ex {}e].
  case: (obind_ok _ _ _ e) => P [/mat_of_ok eP {}e]; case: (obind_ok _ _ _ e) => w [_ {}e].
  case: (obind_ok _ _ _ e) => [[[s1 x1] P1]] [h1 [<- <- <-]].
  rewrite ex eP in g; move/GoodD_of: g => g; have [a b] := apredict _ _ _ _ _ _ _ _ h g h1.
  by split => //=; apply: GoodD_dm.
- by move=> sy v d sy' h e; case: (obind_ok _ _ _ e) => x [_ [<-]]; apply: aproc.
- move=> sy v M v' M' h g e; case: (obind_ok _ _ _ e) => x [/vec_of_ok ex {}e].
  case: (obind_ok _ _ _ e) => P [/mat_of_ok eP [<- <-]].
  by rewrite ex eP in g; move/GoodD_of: g => g; apply: GoodD_dm; apply: amake.
- move=> q Q q' h hq e; case: (obind_ok _ _ _ e) => P [/mat_of_ok eP [<-]].
  by rewrite /MCD /=; apply: asetCov => //; move: hq; rewrite eP.
- by move=> q; apply: aMC.
- move=> sy q v M z dt sy' q' v' M' h hq g e; case: (obind_ok _ _ _ e) => x [/vec_of_ok ex {}e].
  case: (obind_ok _ _ _ e) => P [/mat_of_ok eP {}e]; case: (obind_ok _ _ _ e) => w [_ {}e].
  case: (obind_ok _ _ _ e) => [[[[s1 q1] x1] P1]] [h1 [<- <- <- <-]].
  rewrite ex eP in g; move/GoodD_of: g => g; have [a [b c]] := acorrect _ _ _ _ _ _ _ _ _ _ _ h hq g h1.
  by split => //=; split => //; apply: GoodD_dm.
- move=> q v z q' h e; case: (obind_ok _ _ _ e) => x [_ {}e]; case: (obind_ok _ _ _ e) => w [_ [<-]].
  by apply: amproc.
- move=> q v M v' M' h g e; case: (obind_ok _ _ _ e) => x [/vec_of_ok ex {}e].
  case: (obind_ok _ _ _ e) => P [/mat_of_ok eP [<- <-]].
  by rewrite ex eP in g; move/GoodD_of: g => g; apply: GoodD_dm; apply: ammake.
Qed.
End Alg.
Arguments DV R : clear implicits.
Arguments DM R : clear implicits.
