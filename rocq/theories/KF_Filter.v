(** KalmanFilter and EKF as instances of FilterBase: the system model object, with the functions
    FilterBase calls on it, and a family of measurement model objects. *)
From mathcomp Require Import all_ssreflect all_algebra.
From Verif Require Import Outcome FB_Model FB_Spec FB_Inv McRing LinAlg KF_Algebra KF_Model FB_Alg.
Set Implicit Arguments.
Unset Strict Implicit.
Unset Printing Implicit Defensive.
Import GRing.Theory.
Local Open Scope ring_scope.

Section Ops.
Variables (R : realFieldType) (T : Type) (n m p : nat).
(** what FilterBase calls on a system model besides update(): setControlCovariance
    (system_model.cpp:73-76) and the stationary functions (filter_model.cpp:60-85, user-defined
    lambdas and virtual functions) *)
Record SysOps (S : SysI R T n m p) : Type := {
  so_setRc : sm S -> 'M[R]_m -> sm S;
  so_check : sm S -> bool;
  so_isStat : sm S -> 'cV[R]_n -> DV R -> bool;
  so_proc : sm S -> 'cV[R]_n -> DV R -> sm S;
  so_make : sm S -> 'cV[R]_n -> 'M[R]_n -> 'cV[R]_n * 'M[R]_n
}.
(** the same for a measurement model: setMeasurementCovariance (measurement_model.cpp:63-66) *)
Record MeasOps k (M : MeasI R T n k) : Type := {
  mo_setCov : mm M -> 'M[R]_k -> mm M;
  mo_check : mm M -> bool;
  mo_isStat : mm M -> 'cV[R]_n -> 'cV[R]_k -> bool;
  mo_proc : mm M -> 'cV[R]_n -> 'cV[R]_k -> mm M;
  mo_make : mm M -> 'cV[R]_n -> 'M[R]_n -> 'cV[R]_n * 'M[R]_n
}.

(** what is asked of the user's classes.  [I] is an invariant of the objects (for instance: which
    functions were given to setMakeStationaryFunction).  The setters store the covariance, nothing
    else turns an admissible covariance into an inadmissible one, and the make-stationary functions
    keep the covariance of the estimate PSD *)
Record sys_ok (S : SysI R T n m p) (O : SysOps S) (I : sm S -> Prop) : Prop := {
  sok_setRc : forall (o : sm S) Rc, sm_Rc (so_setRc O o Rc) = Rc /\ sm_Rp (so_setRc O o Rc) = sm_Rp o /\ (I o -> I (so_setRc O o Rc));
  sok_upd : forall (o : sm S) x u dt o', I o -> sm_upd o x u dt = Ok o' -> psd (sm_Rp o) -> psd (sm_Rc o) -> I o' /\ psd (sm_Rp o') /\ psd (sm_Rc o');
  sok_proc : forall (o : sm S) x d, I o -> psd (sm_Rp o) -> psd (sm_Rc o) -> I (so_proc O o x d) /\ psd (sm_Rp (so_proc O o x d)) /\ psd (sm_Rc (so_proc O o x d));
  sok_make : forall (o : sm S) x P, I o -> psd P -> psd (so_make O o x P).2
}.
Record meas_ok k (M : MeasI R T n k) (O : MeasOps M) (I : mm M -> Prop) : Prop := {
  mok_setCov : forall (q : mm M) Q, mm_cov (mo_setCov O q Q) = Q /\ (I q -> I (mo_setCov O q Q));
  mok_upd : forall (q : mm M) x dt q', I q -> mm_upd q x dt = Ok q' -> pd (mm_cov q) -> I q' /\ pd (mm_cov q');
  mok_proc : forall (q : mm M) x z, I q -> pd (mm_cov q) -> I (mo_proc O q x z) /\ pd (mm_cov (mo_proc O q x z));
  mok_make : forall (q : mm M) x P, I q -> psd P -> psd (mo_make O q x P).2
}.
End Ops.

Section Alg.
Variables (R : realFieldType) (TT : TimeOps) (n m p : nat).

Definition kf_alg (S : LinSys R TT n m p) (O : SysOps S) (M : forall k, LinMeas R TT n k) (MO : forall k, MeasOps (M k))
  : FilterAlg R TT n m := {|
  fa_sys := sm S;
  fa_Rc := @sm_Rc _ _ _ _ _ S;
  fa_setRc := so_setRc O;
  fa_check := so_check O;
  fa_isStat := so_isStat O;
  fa_proc := so_proc O;
  fa_make := so_make O;
  fa_predict := fun o x P u dt => kf_predict o x P u dt;
  fa_meas := fun k => mm (M k);
  fa_setCov := fun k => mo_setCov (MO k);
  fa_mcheck := fun k => mo_check (MO k);
  fa_misStat := fun k => mo_isStat (MO k);
  fa_mproc := fun k => mo_proc (MO k);
  fa_mmake := fun k => mo_make (MO k);
  fa_correct := fun k o q x P z dt => let* r := kf_correct o q x P z dt in Ok (o, r.1.1, r.1.2, r.2)
|}.
Definition ekf_alg (S : NonlinSys R TT n m p) (O : SysOps S) (M : forall k, NonlinMeas R TT n k) (MO : forall k, MeasOps (M k))
  : FilterAlg R TT n m := {|
  fa_sys := sm S;
  fa_Rc := @sm_Rc _ _ _ _ _ S;
  fa_setRc := so_setRc O;
  fa_check := so_check O;
  fa_isStat := so_isStat O;
  fa_proc := so_proc O;
  fa_make := so_make O;
  fa_predict := fun o x P u dt => ekf_predict o x P u dt;
  fa_meas := fun k => mm (M k);
  fa_setCov := fun k => mo_setCov (MO k);
  fa_mcheck := fun k => mo_check (MO k);
  fa_misStat := fun k => mo_isStat (MO k);
  fa_mproc := fun k => mo_proc (MO k);
  fa_mmake := fun k => mo_make (MO k);
  fa_correct := fun k o q x P z dt => let* r := ekf_correct o q x P z dt in Ok (o, r.1.1, r.1.2, r.2)
|}.

Definition ekfvs_alg (S : NonlinSys R TT n m p) (O : SysOps S) (M : forall k, NonlinMeas R TT n k) (MO : forall k, MeasOps (M k))
  : FilterAlg R TT n m := {|
  fa_sys := sm S;
  fa_Rc := @sm_Rc _ _ _ _ _ S;
  fa_setRc := so_setRc O;
  fa_check := so_check O;
  fa_isStat := so_isStat O;
  fa_proc := so_proc O;
  fa_make := so_make O;
  fa_predict := fun o x P u dt => ekfvs_predict o x P u dt;
  fa_meas := fun k => mm (M k);
  fa_setCov := fun k => mo_setCov (MO k);
  fa_mcheck := fun k => mo_check (MO k);
  fa_misStat := fun k => mo_isStat (MO k);
  fa_mproc := fun k => mo_proc (MO k);
  fa_mmake := fun k => mo_make (MO k);
  fa_correct := fun k o q x P z dt => let* r := ekfvs_correct o q x P z dt in Ok (o, r.1.1, r.1.2, r.2)
|}.

Definition sys_psd (S : SysI R TT n m p) (I : sm S -> Prop) (o : sm S) : Prop := I o /\ psd (sm_Rp o) /\ psd (sm_Rc o).

Lemma kf_preserved (S : LinSys R TT n m p) (O : SysOps S) (M : forall k, LinMeas R TT n k) (MO : forall k, MeasOps (M k))
    (IS : sm S -> Prop) (IM : forall k, mm (M k) -> Prop) :
  sys_ok O IS -> (forall k, meas_ok (MO k) (@IM k)) ->
  AlgPreserved (F := kf_alg O MO) (fun _ => @psd R n) (sys_psd IS) IM
     (fun k (q : mm (M k)) => IM k q /\ pd (mm_cov q)) (@psd R m) (fun k => @pd R k).
Proof.
move=> [s1 s2 s3 s4] hm; split => /=.
- by move=> sy [_ []].
- by move=> sy Rc [i [a b]] c; have [h1 [h2 h3]] := s1 sy Rc; split; [apply: h3|rewrite h1 h2].
- by move=> sy x d [i [a b]]; apply: s3.
- by move=> sy x P [i _]; apply: s4.
- move=> sy x P u dt sy' x' P' [i [a b]] pP e; case: (obind_ok _ _ _ e) => o1 [eu [<- _ <-]].
  have [i' [c d]] := s2 _ _ _ _ _ i eu a b; split; first by split.
  by do !apply: psdD; apply: psd_congr.
- by move=> k q Q i pQ; have [h _ _ _] := hm k; have [h1 h2] := h q Q; split; [apply: h2|rewrite h1].
- by move=> k q [].
- by move=> k q x z [i pq]; have [_ _ h _] := hm k; apply: h.
- by move=> k q x P [i _]; have [_ _ _ h] := hm k; apply: h.
- move=> k sy q x P z dt sy' q' x' P' hs [iq pq] pP e; case: (obind_ok _ _ _ e) => [[[q1 x1] P1]] [ec [<- <- _ <-]].
  case: (obind_ok _ _ _ ec) => q2 [eu {}ec].
  have [_ hu _ _] := hm k; have [iq2 pq2] := hu _ _ _ _ iq eu pq.
  have u := pd_unit (innov_pd (lm_C q2) pP pq2).
  move: ec; rewrite /inverse; rewrite -/(innov P (lm_C q2) (mm_cov q2)) u /= => -[<- _ <-].
  by do 2 split => //; apply: post_psd => //; apply: pd_psd.
Qed.
Lemma ekf_preserved (S : NonlinSys R TT n m p) (O : SysOps S) (M : forall k, NonlinMeas R TT n k) (MO : forall k, MeasOps (M k))
    (IS : sm S -> Prop) (IM : forall k, mm (M k) -> Prop) :
  sys_ok O IS -> (forall k, meas_ok (MO k) (@IM k)) ->
  AlgPreserved (F := ekf_alg O MO) (fun _ => @psd R n) (sys_psd IS) IM
     (fun k (q : mm (M k)) => IM k q /\ pd (mm_cov q)) (@psd R m) (fun k => @pd R k).
Proof.
move=> [s1 s2 s3 s4] hm; split => /=.
- by move=> sy [_ []].
- by move=> sy Rc [i [a b]] c; have [h1 [h2 h3]] := s1 sy Rc; split; [apply: h3|rewrite h1 h2].
- by move=> sy x d [i [a b]]; apply: s3.
- by move=> sy x P [i _]; apply: s4.
- move=> sy x P u dt sy' x' P' [i [a b]] pP e; case: (obind_ok _ _ _ e) => o1 [eu [<- _ <-]].
  have [i' [c d]] := s2 _ _ _ _ _ i eu a b; split; first by split.
  by do !apply: psdD; apply: psd_congr.
- by move=> k q Q i pQ; have [h _ _ _] := hm k; have [h1 h2] := h q Q; split; [apply: h2|rewrite h1].
- by move=> k q [].
- by move=> k q x z [i pq]; have [_ _ h _] := hm k; apply: h.
- by move=> k q x P [i _]; have [_ _ _ h] := hm k; apply: h.
- move=> k sy q x P z dt sy' q' x' P' hs [iq pq] pP e; case: (obind_ok _ _ _ e) => [[[q1 x1] P1]] [ec [<- <- _ <-]].
  case: (obind_ok _ _ _ ec) => q2 [eu {}ec].
  have [_ hu _ _] := hm k; have [iq2 pq2] := hu _ _ _ _ iq eu pq.
  have u := pd_unit (innov_pd (nm_H q2) pP pq2).
  move: ec; rewrite /inverse; rewrite -/(innov P (nm_H q2) (mm_cov q2)) u /= => -[<- _ <-].
  by do 2 split => //; apply: post_psd => //; apply: pd_psd.
Qed.
End Alg.
