(** C76: every reachable covariance of a UKF is symmetric positive definite; concrete models that
    meet the hypotheses of the theorems of Props_UKF.v. *)
From mathcomp Require Import all_ssreflect all_algebra.
From Coq Require Import ZArith.
From Verif Require Import Outcome FB_Model FB_Time FB_Trace FB_Spec FB_Inv Props_Queue McRing LinAlg KF_Algebra KF_Model FB_Alg KF_Filter Props_KF Props_KFRun.
From Verif Require Import UKF_Model UKF_Chol UKF_Lemmas UKF_Algebra Props_UKF.
Set Implicit Arguments.
Unset Strict Implicit.
Unset Printing Implicit Defensive.
Import GRing.Theory Num.Theory Order.TTheory.
Local Open Scope ring_scope.

Section Alg.
Variables (R : rcfType) (TT : TimeOps) (n m p : nat).

(** UKF as an instance of FilterBase.  The sigma point parameters are data members of the filter
    that FilterBase does not touch; they are kept with the system model object, so that the user's
    calls of setSigmaPointParameters are among the operations that change it. *)
Definition ukf_alg (S : NonlinSys R TT n m p) (O : SysOps S) (M : forall k, NonlinMeas R TT n k) (MO : forall k, MeasOps (M k))
  : FilterAlg R TT n m := {|
  fa_sys := (sm S * UKFPar R)%type;
  fa_Rc := fun o => sm_Rc o.1;
  fa_setRc := fun o Rc => (so_setRc O o.1 Rc, o.2);
  fa_check := fun o => so_check O o.1;
  fa_isStat := fun o => so_isStat O o.1;
  fa_proc := fun o x d => (so_proc O o.1 x d, o.2);
  fa_make := fun o => so_make O o.1;
  fa_predict := fun o x P u dt => let* r := ukf_predict o.2 o.1 x P u dt in Ok (r.1.1, o.2, r.1.2, r.2);
  fa_meas := fun k => mm (M k);
  fa_setCov := fun k => mo_setCov (MO k);
  fa_mcheck := fun k => mo_check (MO k);
  fa_misStat := fun k => mo_isStat (MO k);
  fa_mproc := fun k => mo_proc (MO k);
  fa_mmake := fun k => mo_make (MO k);
  fa_correct := fun k o q x P z dt => let* r := ukf_correct o.2 o.1 q x P z dt in Ok (o, r.1.1, r.1.2, r.2)
|}.

(** what is asked of the user's classes.  [I] is an invariant of the model objects. *)
Record usys_ok (S : NonlinSys R TT n m p) (O : SysOps S) (I : sm S -> Prop) : Prop := {
  uso_Rc : forall o : sm S, I o -> psd (sm_Rc o);
  uso_setRc : forall (o : sm S) Rc, I o -> psd Rc -> I (so_setRc O o Rc);
  uso_upd : forall (o : sm S) x u dt o', I o -> sm_upd o x u dt = Ok o' ->
     I o' /\ pd (sm_P o' *m sm_Rp o' *m (sm_P o')^T + sm_V o' *m sm_Rc o' *m (sm_V o')^T);
  uso_proc : forall (o : sm S) x d, I o -> I (so_proc O o x d);
  uso_make : forall (o : sm S) x P, I o -> pd P -> pd (so_make O o x P).2
}.
Record umeas_ok k (M : MeasI R TT n k) (O : MeasOps M) (I : mm M -> Prop) : Prop := {
  umo_setCov : forall (q : mm M) Q, mm_cov (mo_setCov O q Q) = Q /\ (I q -> I (mo_setCov O q Q));
  umo_upd : forall (q : mm M) x dt, I q -> pd (mm_cov q) -> exists q', mm_upd q x dt = Ok q' /\ I q' /\ pd (mm_cov q');
  umo_proc : forall (q : mm M) x z, I q -> pd (mm_cov q) -> I (mo_proc O q x z) /\ pd (mm_cov (mo_proc O q x z));
  umo_make : forall (q : mm M) x P, I q -> pd P -> pd (mo_make O q x P).2
}.
(** parameters set with alpha^2 (n + kappa) > 0 and alpha^2 <= beta *)
Definition good_par (par : UKFPar R) : Prop :=
  exists alpha kappa beta : R, set_sigma n alpha kappa beta = Ok par /\ 0 < alpha ^+ 2 * (n%:R + kappa) /\ alpha ^+ 2 <= beta.

Lemma ukf_preserved (S : NonlinSys R TT n m p) (O : SysOps S) (M : forall k, NonlinMeas R TT n k) (MO : forall k, MeasOps (M k)) (I : sm S -> Prop) (IM : forall k, mm (M k) -> Prop) :
  default_sys S -> (forall k, default_meas (M k)) -> usys_ok O I -> (forall k, umeas_ok (MO k) (@IM k)) ->
  AlgPreserved (F := ukf_alg O MO) (fun _ => @pd R n) (fun o => I o.1 /\ good_par o.2) IM
     (fun k (q : mm (M k)) => IM k q /\ pd (mm_cov q)) (@psd R m) (fun k => @pd R k).
Proof.
move=> dS dM [s1 s2 s3 s4 s5] hm; split => /=.
- by move=> [o par] /= [h _]; apply: s1.
- by move=> [o par] Rc /= [a b] c; split => //=; apply: s2.
- by move=> [o par] x d /= [a b]; split => //=; apply: s4.
- by move=> [o par] x P /= [a _]; apply: s5.
- move=> [o par] x P u dt [o' par'] x' P' /= [io gp] pP e.
  case: (obind_ok _ _ _ e) => [[[o1 x1] P1]] [ep /= [<- <- _ <-]].
  have [al [ka [be [hs [hc hb]]]]] := gp.
  have [||o2 [yh [yl [_ _ _ [i1 n1] _]]]] := @predict_shape _ _ _ _ _ S dS _ _ _ _ hs _ _ _ _ _ _ _ _ I
     (fun o' => pd (sm_P o' *m sm_Rp o' *m (sm_P o')^T + sm_V o' *m sm_Rc o' *m (sm_V o')^T)) (fun _ _ => True) _ _ ep => //.
    by move=> o3 y o4 j3 e3; split => //; apply: s3 e3.
  by split => //; apply: (C51_predict_pd dS hs hc hb ep n1).
- by move=> k q Q i pQ; have [h _ _ _] := hm k; have [h1 h2] := h q Q; split; [apply: h2|rewrite h1].
- by move=> k q [].
- by move=> k q x z [i pq]; have [_ _ h _] := hm k; apply: h.
- by move=> k q x P [i _]; have [_ _ _ h] := hm k; apply: h.
- move=> k [o par] q x P z dt [o' par'] q' x' P' /= [io gp] [iq pq] pP e.
  case: (obind_ok _ _ _ e) => [[[q1 x1] P1]] [ec /= [<- <- <- _ <-]].
  have [al [ka [be [hs [hc hb]]]]] := gp.
  have [_ hu _ _] := hm k.
  have [|q2 [x2 [P2 [e2 [iq2 [pP2 _]]]]]] := @C51_correct _ _ _ _ _ _ S (M k) dS (dM k) _ _ _ _ hs (fun q => IM k q /\ pd (mm_cov q)) o q x P z dt (conj iq pq) _ pP hc hb.
    by move=> q0 y [i0 h0]; have [q2 [h1 [h2 h3]]] := hu q0 y dt i0 h0; exists q2.
  by move: ec; rewrite e2 => -[<- _ <-]; case: iq2.
Qed.

(** ** C76.  Whatever sequence of calls, including queries, queued inputs and rewinds. *)
Definition ukf_admissible (F : FilterAlg R TT n m) (SI : fa_sys F -> Prop) (MI : forall k, fa_meas F k -> Prop) (o : Op (E := alg_env F)) : Prop :=
  match o with
  | OpInit x P _ => exists (x' : 'cV[R]_n) (P' : 'M[R]_n), x = dv x' /\ P = dm P' /\ pd P'
  | OpCorrect _ Q _ _ | OpEnqM _ Q _ _ => pd (projT2 Q)
  | OpSys f => forall sy, SI sy -> SI (f sy)
  | OpMeas f => forall ms : list (DMeas F), List.Forall (fun q => MI (projT1 q) (projT2 q)) ms -> List.Forall (fun q => MI (projT1 q) (projT2 q)) (f ms)
  | _ => True
  end.
Lemma pd_reachable (F : FilterAlg R TT n m) (SI : fa_sys F -> Prop) (MI MC : forall k, fa_meas F k -> Prop)
    (L : Lib (alg_env F)) sy (ms : list (DMeas F)) (x : 'cV[R]_n) (P : 'M[R]_n) (t : TT) ops s :
  (forall l i, List.In i (lib_sort L l) -> List.In i l) ->
  AlgPreserved (fun _ => @pd R n) SI MI MC (@psd R m) (fun k => @pd R k) ->
  SI sy -> List.Forall (fun q => MI (projT1 q) (projT2 q)) ms -> pd P -> List.Forall (ukf_admissible SI MI) ops ->
  run L ops (new_filter (E := alg_env F) sy ms (dv x) (dm P) t) = Ok s ->
  exists P' : 'M[R]_n, getCovariance s = dm P' /\ pd P'.
Proof.
move=> hs hp si mi pP ho hr.
suff h : GoodD (fun _ => @pd R n) (getState s) (getCovariance s) by have [x' [P' [_ [e pP']]]] := h; exists P'.
apply: (@C30_invariant _ (alg_env F) L _ _ _ _ _ _ _ _ _ _ _ _ _ hs (alg_preserved hp) si mi (GoodD_dm (G := fun _ => @pd R n) pP) _ hr).
by elim: ho => [|o l h1 _ IH]; constructor => //; case: o h1.
Qed.
Theorem C76_ukf (S : NonlinSys R TT n m p) (O : SysOps S) (M : forall k, NonlinMeas R TT n k) (MO : forall k, MeasOps (M k)) (I : sm S -> Prop) (IM : forall k, mm (M k) -> Prop)
    (L : Lib (alg_env (ukf_alg O MO))) (sy : sm S) (par : UKFPar R) (ms : list (DMeas (ukf_alg O MO))) (x : 'cV[R]_n) (P : 'M[R]_n) (t : TT) ops s :
  (forall l i, List.In i (lib_sort L l) -> List.In i l) ->
  default_sys S -> (forall k, default_meas (M k)) -> usys_ok O I -> (forall k, umeas_ok (MO k) (@IM k)) ->
  I sy -> good_par par -> pd P -> List.Forall (fun q => IM (projT1 q) (projT2 q)) ms ->
  List.Forall (@ukf_admissible (ukf_alg O MO) (fun o => I o.1 /\ good_par o.2) IM) ops ->
  run L ops (new_filter (E := alg_env (ukf_alg O MO)) (sy, par) ms (dv x) (dm P) t) = Ok s ->
  exists P' : 'M[R]_n, getCovariance s = dm P' /\ pd P'.
Proof.
move=> hs dS dM h1 h2 io gp pP hms ho hr.
exact: (@pd_reachable (ukf_alg O MO) (fun o => I o.1 /\ good_par o.2) IM (fun k (q : mm (M k)) => IM k q /\ pd (mm_cov q)) L (sy, par) ms x P t ops s hs (ukf_preserved dS dM h1 h2) (conj io gp) hms pP ho hr).
Qed.
End Alg.

(** ** Models given by functions, with default vector operations; the object holds the point of the
    last update and the stored covariance *)
Section Fn.
Variables (R : rcfType) (T : Type) (n m p k : nat).
Definition fn_sys (g : 'cV[R]_n -> 'cV[R]_n) (G : 'cV[R]_n -> 'M[R]_n) (W : 'M[R]_(n, p)) (V : 'M[R]_(n, m)) (Rp : 'M[R]_p) act actC : NonlinSys R T n m p :=
  @Build_NonlinSys R T n m p
   {| sm := ('cV[R]_n * 'M[R]_m)%type; sm_upd := fun o x _ _ => Ok (x, o.2); sm_P := fun _ => W; sm_V := fun _ => V; sm_Rp := fun _ => Rp;
      sm_Rc := fun o => o.2; sm_add := fun _ => @add_default R n; sm_sub := fun _ => @sub_default R n;
      sm_wsum := fun _ => @wsum_default R n; sm_act := fun _ => act; sm_actC := fun _ => actC |} (fun o => g o.1) (fun o => G o.1).
Definition fn_meas (h : 'cV[R]_n -> 'cV[R]_k) (H : 'cV[R]_n -> 'M[R]_(k, n)) act : NonlinMeas R T n k :=
  @Build_NonlinMeas R T n k
   {| mm := ('cV[R]_n * 'M[R]_k)%type; mm_upd := fun q x _ => Ok (x, q.2); mm_cov := fun q => q.2; mm_sub := fun _ => @sub_default R k;
      mm_wsum := fun _ => @wsum_default R k; mm_act := fun _ => act |} (fun q => h q.1) (fun q => H q.1).
End Fn.

Section Witness.
Delimit Scope nat_scope with N.
Variable R : rcfType.
Lemma default_ok (n : nat) : (0 < n)%N -> (0 : R) < (1 / 1000%:R) ^+ 2 * (n%:R + 0) /\ (1 / 1000%:R) ^+ 2 <= 2%:R :> R.
Proof.
move=> h; have t : (0 : R) < 1 / 1000%:R by rewrite divr_gt0 ?ltr01 ?ltr0n.
split; first by rewrite addr0; apply: mulr_gt0; [apply: exprn_gt0|rewrite ltr0n].
have a : 1 / 1000%:R <= 1 :> R by rewrite ler_pdivr_mulr ?ltr0n // mul1r ler1n.
by apply: (@le_trans _ _ 1); [apply: exprn_ile1 => //; exact: ltW|rewrite ler1n].
Qed.
(** the default parameters, a quadratic system and a quadratic measurement meet the hypotheses of
    C51; the affine ones those of C50 *)
Example UKF_nonvacuous (x : 'cV[R]_2) (z : 'cV[R]_1) (u : 'cV[R]_1) :
  let S := fn_sys unit (fun y : 'cV[R]_2 => \col_i (y i 0) ^+ 2) (fun y : 'cV[R]_2 => \matrix_(i, j) (2%:R * y i 0 *+ (i == j))) 1%:M 0 1%:M [::] [::] in
  let M := fn_meas unit (fun y : 'cV[R]_2 => \col_(i < 1) (y 0 0 * y 0 0)) (fun y => 0) [::] in
  let o : sm S := (x, 1%:M : 'M[R]_1) in let q : mm M := (x, 1%:M) in
  exists par, set_sigma 2 (1 / 1000%:R) 0 2%:R = Ok par /\ up_num par = 5%N
   /\ (exists o' x' P', ukf_predict par o x (1%:M : 'M[R]_2) u tt = Ok (o', x', P') /\ pd P')
   /\ (exists q' x' P', ukf_correct par o q x (1%:M : 'M[R]_2) z tt = Ok (q', x', P') /\ pd P').
Proof.
move=> S M o q; have dS : default_sys S by []; have dM : default_meas M by []; have [hc hb] := @default_ok 2 erefl.
have [|par [hs [_ [_ [hn _]]]]] := @C49_weights R 2 (1 / 1000%:R) 0 2%:R; first by rewrite lt0r_neq0.
exists par; do 2 split => //; split.
  have [||o' [x' [P' e]]] := @C51_predict_defined _ _ _ _ _ S _ _ _ _ hs o x 1%:M u tt (fun _ => True) => //.
    by move=> o0 y _; eexists.
  exists o', x', P'; split => //; apply: (C51_predict_pd dS hs hc hb e).
  by rewrite /= mul0mx mul0mx addr0 mul1mx trmx1 mulmx1; exact: pd1.
have [|q' [x' [P' [e [_ [pP _]]]]]] := @C51_correct _ _ _ _ _ _ S M dS dM _ _ _ _ hs
   (fun q => q.2 = 1%:M) o q x 1%:M z tt erefl _ (pd1 _ _) hc hb.
  by move=> [y1 Q] y /= ->; eexists; split; [reflexivity|split => //; exact: pd1].
by exists q', x', P'.
Qed.
Example C50_nonvacuous (A : 'M[R]_2) (b : 'cV[R]_2) (C : 'M[R]_(1, 2)) (d : 'cV[R]_1) (x : 'cV[R]_2) :
  let S := fn_sys unit (fun y => A *m y + b) (fun y => A) (1%:M : 'M[R]_2) (0 : 'M[R]_(2, 1)) 1%:M [::] [::] in
  let M := fn_meas unit (fun y => C *m y + d) (fun y => C) [::] in
  (forall (o : sm S) y u dt, exists o', sm_upd o y u dt = Ok o' /\ True /\ ns_g o' = A *m y + b /\ ns_G o' = A
      /\ sm_P o' *m sm_Rp o' *m (sm_P o')^T + sm_V o' *m sm_Rc o' *m (sm_V o')^T = 1%:M)
  /\ (forall (q : mm M) y dt, q.2 = 1%:M -> exists q', mm_upd q y dt = Ok q' /\ q'.2 = 1%:M /\ mm_cov q' = 1%:M /\ nm_h q' = C *m y + d /\ nm_H q' = C)
  /\ pd (1%:M : 'M[R]_2) /\ pd (1%:M : 'M[R]_1).
Proof.
split=> [o y u dt|].
  by eexists; split; [reflexivity|]; rewrite /= mul0mx mul0mx addr0 mul1mx trmx1 mulmx1.
split=> [q y dt e|]; first by eexists; split; [reflexivity|]; rewrite /= e.
by split; exact: pd1.
Qed.

(** C76: the quadratic system *)
Definition q_sys : NonlinSys R ZTime 2 1 2 :=
  fn_sys ZTime (fun y : 'cV[R]_2 => \col_i (y i 0) ^+ 2) (fun y => 0) 1%:M (0 : 'M[R]_(2, 1)) 1%:M [::] [::].
Definition q_ops : SysOps q_sys := @const_sys_ops R ZTime 2 1 2 q_sys (fun o (Rc : 'M[R]_1) => (o.1, Rc)).
Definition q_fam (k : nat) : NonlinMeas R ZTime 2 k := fn_meas ZTime (fun y : 'cV[R]_2 => \col_i (y 0 0) ^+ i.+2) (fun y => 0) [::].
Definition q_mops (k : nat) : MeasOps (q_fam k) := @const_meas_ops R ZTime 2 k (q_fam k) (fun q (Q : 'M[R]_k) => (q.1, Q)).
Example C76_nonvacuous :
  default_sys q_sys /\ (forall k, default_meas (q_fam k)) /\ usys_ok q_ops (fun o => psd o.2) /\ (forall k, umeas_ok (q_mops k) (fun _ => True))
  /\ exists par : UKFPar R, good_par 2 par.
Proof.
do 2 split => //; split.
  split => //=; move=> [y Rc] x u dt o' /= pc [<-]; split => //=.
  by rewrite /= mul0mx mul0mx addr0 mul1mx trmx1 mulmx1; exact: pd1.
split.
  move=> k; split => //=.
  by move=> [y Q] x dt /= h; eexists.
have [hc hb] := @default_ok 2 erefl.
have [|par [hs _]] := @C49_weights R 2 (1 / 1000%:R) 0 2%:R; first by rewrite lt0r_neq0.
by exists par; exists (1 / 1000%:R), 0, 2%:R.
Qed.
End Witness.
