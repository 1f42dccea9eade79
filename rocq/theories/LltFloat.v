(** The square root the unscented filters take of (n + lambda) * covariance, Eigen's LLT, in double
    arithmetic (IEEE binary64, to nearest even), whatever the order of the additions and with or without
    fused multiply-add ([MatFloat.sums]). *)
From Coq Require Import ZArith Reals Lra Lia Bool List.
From Flocq Require Import Core IEEE754.BinarySingleNaN.
From Verif Require Import Outcome FB_Model FloatTime AngleFloat KF_Float MatFloat UKFFloat.
Import ListNotations.
Open Scope R_scope.

Definition fsqrt64 : f64 -> f64 := Bsqrt mode_NE.
(** Eigen/src/Cholesky/LLT.h, llt_inplace::unblocked (see UKF_Model.v): A(i,k) - A10/A20 * A10.adjoint() *)
Definition llt64_rest (A L : fmat) (i k : nat) (y : f64) : Prop :=
  sums ((fone, A i k) :: pairs k (fun j => fopp64 (L i j)) (L k)) y.
(** A21 /= x in the unblocked version; the blocked one (32 rows or more) multiplies by the inverse *)
Definition quotient64 (y l q : f64) : Prop := q = fdiv64 y l \/ q = fmul64 y (fdiv64 fone l).
(** one step that succeeds: the pivot is not <= 0 *)
Definition llt64_column (n : nat) (A L : fmat) (k : nat) : Prop :=
  (exists x, llt64_rest A L k k x /\ Bleb x fzero = false /\ L k k = fsqrt64 x) /\
  forall i, (k < i < n)%nat -> exists y, llt64_rest A L i k y /\ quotient64 y (L k k) (L i k).
(** .llt().matrixL() of the n x n matrix A: steps 0 .. f-1 succeed; if f < n the pivot of step f is <= 0 and the
    remaining columns are left as they were *)
Definition llt64 (n : nat) (A L : fmat) : Prop :=
  (forall i j, (i < j)%nat -> L i j = fzero) /\
  exists f, (f <= n)%nat /\ (forall k, (k < f)%nat -> llt64_column n A L k) /\
  ((f < n)%nat -> (exists x, llt64_rest A L f f x /\ Bleb x fzero = true) /\ forall k i, (f <= k <= i)%nat -> (i < n)%nat -> L i k = A i k).
(** every pivot was positive: llt().info() == Success, which the filters do not ask for *)
Definition llt64_succeeds (n : nat) (A L : fmat) : Prop := forall k, (k < n)%nat -> llt64_column n A L k.
(** ukf.cpp:52-53, 107-108 (ukf_vs.cpp:62-63, 144-145 with the active states): c is n + lambda *)
Definition ukf64_offsets (n : nat) (c : f64) (P L : fmat) : Prop := llt64 n (fun i j => fmul64 c (P i j)) L.

(** ** Sums *)
Lemma rsum_minus n f g : rsum n (fun k => f k - g k) = rsum n f - rsum n g.
Proof. induction n as [|n IH]; cbn [rsum]; [ring|]. rewrite IH. ring. Qed.
Lemma rsum_delta n p f : (p < n)%nat -> rsum n (fun i => if Nat.eqb i p then f i else 0) = f p.
Proof.
  intros H. induction n as [|n IH]; [lia|]. cbn [rsum]. destruct (Nat.eq_dec p n) as [->|D].
  - rewrite Nat.eqb_refl. rewrite (rsum_ext n _ (fun _ => 0)), rsum_0; [ring|]. intros k Hk. destruct (Nat.eqb_spec k n); [lia|reflexivity].
  - rewrite IH by lia. destruct (Nat.eqb_spec n p); [lia|ring].
Qed.
Lemma rsum_cut n k f : (k <= n)%nat -> (forall i, (k <= i < n)%nat -> f i = 0) -> rsum n f = rsum k f.
Proof.
  intros H Z. induction n as [|n IH]; [replace k with 0%nat by lia; reflexivity|]. destruct (Nat.eq_dec k (S n)) as [->|D]; [reflexivity|].
  cbn [rsum]. rewrite IH by (try intros; try apply Z; lia). rewrite Z by lia. ring.
Qed.
Lemma rsum_prod n m f g : rsum n f * rsum m g = rsum n (fun i => rsum m (fun j => f i * g j)).
Proof. rewrite <- rsum_scal_r. apply rsum_ext. intros i _. rewrite rsum_scal. reflexivity. Qed.
Lemma rsum_sq n t : rsum n t * rsum n t <= INR n * rsum n (fun i => t i * t i).
Proof.
  rewrite rsum_prod. apply Rle_trans with (rsum n (fun i => rsum n (fun j => / 2 * (t i * t i) + / 2 * (t j * t j)))).
  - apply rsum_le. intros i _. apply rsum_le. intros j _. pose proof (Rle_0_sqr (t i - t j)) as Q. unfold Rsqr in Q. lra.
  - apply Req_le. rewrite (rsum_ext n _ (fun i => INR n * (/ 2 * (t i * t i)) + / 2 * rsum n (fun j => t j * t j))).
    + assert (Cst : forall c m, rsum m (fun _ => c) = INR m * c) by (intros c m; induction m as [|m IH]; cbn [rsum]; [simpl; ring|rewrite IH, S_INR; ring]).
      rewrite rsum_plus, Cst, rsum_scal, rsum_scal. field.
    + intros i _. assert (Cst : forall c m, rsum m (fun _ => c) = INR m * c) by (intros c m; induction m as [|m IH]; cbn [rsum]; [simpl; ring|rewrite IH, S_INR; ring]).
      rewrite rsum_plus, Cst, rsum_scal. reflexivity.
Qed.

(** ** Back substitution: for a lower triangular l with nonzero diagonal, l' v = r has a solution *)
Lemma back_subst (l : nat -> nat -> R) K r : (forall i j, (i < j)%nat -> l i j = 0) -> (forall j, (j < K)%nat -> l j j <> 0) ->
  exists v, forall j, (j < K)%nat -> rsum K (fun i => l i j * v i) = r j.
Proof.
  intros Z. revert r. induction K as [|K IH]; intros r D; [exists (fun _ => 0); intros; lia|].
  destruct (IH (fun j => r j - l K j * (r K / l K K)) ltac:(intros; apply D; lia)) as (v & V).
  exists (fun i => if Nat.eqb i K then r K / l K K else v i). intros j Hj. cbn [rsum]. rewrite Nat.eqb_refl.
  rewrite (rsum_ext K _ (fun i => l i j * v i)) by (intros i Hi; destruct (Nat.eqb_spec i K); [lia|reflexivity]).
  destruct (Nat.eq_dec j K) as [->|N].
  - rewrite (rsum_ext K _ (fun _ => 0)), rsum_0 by (intros i Hi; rewrite (Z i K Hi); ring). field. apply D. lia.
  - rewrite V by lia. ring.
Qed.

(** ** One column of the factor leaves enough of the diagonal.  a is symmetric with diagonal d_i^2 and
    v'a v >= delta * sum_i d_i^2 v_i^2; columns 0 .. J of l have been found, with errors eta d_i d_j *)
Definition qform (n : nat) (a : nat -> nat -> R) (v : nat -> R) : R := rsum n (fun p => rsum n (fun q => v p * v q * a p q)).
Lemma entry_bound n a d delta p q : (forall i j, (i < n)%nat -> (j < n)%nat -> a i j = a j i) -> (forall i, (i < n)%nat -> 0 < d i /\ a i i = d i * d i) -> 0 <= delta ->
  (forall v, delta * rsum n (fun i => a i i * (v i * v i)) <= qform n a v) -> (p < n)%nat -> (q < n)%nat -> Rabs (a p q) <= d p * d q.
Proof.
  intros Sy D D0 H Hp Hq. destruct (D p Hp) as [dp Ap], (D q Hq) as [dq Aq].
  destruct (Nat.eq_dec p q) as [->|N]. { rewrite Aq, Rabs_pos_eq; [lra|]. nra. }
  assert (Q : forall s, 0 <= d p * d p * (d q * d q) + d p * d p * (d q * d q) * (s * s) + 2 * (s * (d p * d q) * a p q)).
  { intros s. set (v := fun i => (if Nat.eqb i p then d q else 0) + (if Nat.eqb i q then s * d p else 0)). specialize (H v).
    assert (L : 0 <= delta * rsum n (fun i => a i i * (v i * v i))).
    { apply Rmult_le_pos; [exact D0|]. apply rsum_pos. intros i Hi. destruct (D i Hi) as [di Ai]. rewrite Ai. pose proof (Rle_0_sqr (v i)) as Q. unfold Rsqr in Q. apply Rmult_le_pos; [nra|exact Q]. }
    apply (Rle_trans _ _ _ L) in H. apply (Rle_trans _ _ _ H). apply Req_le. unfold qform.
    rewrite (rsum_ext n _ (fun i => (if Nat.eqb i p then d q * (d q * a i p + s * d p * a i q) else 0) + (if Nat.eqb i q then s * d p * (d q * a i p + s * d p * a i q) else 0))).
    - rewrite rsum_plus, (rsum_delta n p (fun i => d q * (d q * a i p + s * d p * a i q)) Hp), (rsum_delta n q (fun i => s * d p * (d q * a i p + s * d p * a i q)) Hq). rewrite Ap, Aq, (Sy q p Hq Hp). ring.
    - intros i _. rewrite (rsum_ext n _ (fun j => (if Nat.eqb j p then v i * d q * a i j else 0) + (if Nat.eqb j q then v i * (s * d p) * a i j else 0))).
      + rewrite rsum_plus, (rsum_delta n p (fun j => v i * d q * a i j) Hp), (rsum_delta n q (fun j => v i * (s * d p) * a i j) Hq). unfold v.
        destruct (Nat.eqb i p), (Nat.eqb i q); ring.
      + intros j _. unfold v at 2. destruct (Nat.eqb j p), (Nat.eqb j q); ring. }
  assert (P : 0 < d p * d q) by (apply Rmult_lt_0_compat; assumption). set (w := d p * d q) in *.
  pose proof (Q 1) as Q1. pose proof (Q (-1)) as Q2.
  replace (d p * d p * (d q * d q)) with (w * w) in Q1, Q2 by (unfold w; ring).
  apply Rabs_le. split; apply (Rmult_le_reg_l w); try exact P; lra.
Qed.
Lemma column_leaves n a d l delta eta J i : (forall p q, (p < n)%nat -> (q < n)%nat -> a p q = a q p) -> (forall p, (p < n)%nat -> 0 < d p /\ a p p = d p * d p) -> 0 <= eta ->
  (forall v, delta * rsum n (fun p => a p p * (v p * v p)) <= qform n a v) ->
  (forall p q, (p < q)%nat -> l p q = 0) -> (forall j, (j < J)%nat -> l j j <> 0) ->
  (forall p q, (q < J)%nat -> (q <= p < n)%nat -> Rabs (a p q - rsum (S q) (fun m => l p m * l q m)) <= eta * (d p * d q)) ->
  eta * INR n <= delta -> (J <= i < n)%nat -> rsum J (fun m => l i m * l i m) <= a i i - (delta - eta * INR n) * a i i.
Proof.
  intros Sy D E0 H Z Dg Er Hde Hi. destruct (back_subst l J (fun j => - l i j) Z Dg) as (v0 & V0).
  set (v := fun p => if Nat.eqb p i then 1 else if Nat.ltb p J then v0 p else 0).
  assert (Vi : v i = 1) by (unfold v; rewrite Nat.eqb_refl; reflexivity).
  assert (Vz : forall p, (J <= p)%nat -> p <> i -> v p = 0).
  { intros p Hp N. unfold v. destruct (Nat.eqb_spec p i); [lia|]. destruct (Nat.ltb_spec p J); [lia|reflexivity]. }
  assert (Vs : forall p, (p < J)%nat -> v p = v0 p).
  { intros p Hp. unfold v. destruct (Nat.eqb_spec p i); [lia|]. destruct (Nat.ltb_spec p J); [reflexivity|lia]. }
  assert (V : forall m, (m < J)%nat -> rsum n (fun p => v p * l p m) = 0).
  { intros m Hm. rewrite (rsum_ext n _ (fun p => (if Nat.eqb p i then l p m else 0) + (if Nat.ltb p J then l p m * v0 p else 0))).
    - rewrite rsum_plus, (rsum_delta n i (fun p => l p m)) by lia. rewrite (rsum_cut n J); [|lia|intros p Hp; destruct (Nat.ltb_spec p J); [lia|reflexivity]].
      rewrite (rsum_ext J _ (fun p => l p m * v0 p)), V0 by (try intros p Hp; try destruct (Nat.ltb_spec p J); try reflexivity; lia). ring.
    - intros p Hp. unfold v. destruct (Nat.eqb_spec p i); destruct (Nat.ltb_spec p J); try lia; ring. }
  set (B := fun p q => rsum J (fun m => l p m * l q m)).
  assert (QB : qform n B v = 0).
  { unfold qform. rewrite (rsum_ext n _ (fun p => rsum J (fun m => v p * l p m * rsum n (fun q => v q * l q m)))).
    - rewrite rsum_swap. rewrite (rsum_ext J _ (fun _ => 0)), rsum_0; [reflexivity|]. intros m Hm. rewrite rsum_scal_r, (V m Hm). ring.
    - intros p _. rewrite (rsum_ext J _ (fun m => rsum n (fun q => v p * l p m * (v q * l q m)))) by (intros m _; rewrite rsum_scal; reflexivity).
      rewrite rsum_swap. apply rsum_ext. intros q _. unfold B. rewrite <- rsum_scal. apply rsum_ext. intros m _. ring. }
  set (e := a i i - B i i).
  assert (T : forall p q, (p < n)%nat -> (q < n)%nat -> v p * v q * a p q <= v p * v q * B p q
      + ((if Nat.eqb p i then (if Nat.eqb q i then e else 0) else 0) + eta * (d p * Rabs (v p) * (d q * Rabs (v q))))).
  { assert (E1 : forall p q, (q < J)%nat -> (q <= p < n)%nat -> Rabs (a p q - B p q) <= eta * (d p * d q)).
    { intros p q Hq Hp. unfold B. rewrite (rsum_cut J (S q)); [apply Er; assumption|lia|]. intros m Hm. rewrite (Z q m) by lia. ring. }
    assert (Bs : forall p q, B p q = B q p) by (intros; unfold B; apply rsum_ext; intros; ring).
    assert (E2 : forall p q, (p < n)%nat -> (q < n)%nat -> (p < J \/ p = i)%nat -> (q < J \/ q = i)%nat -> (p <> i \/ q <> i) -> Rabs (a p q - B p q) <= eta * (d p * d q)).
    { intros p q Hp Hq Cp Cq N. destruct (le_lt_dec q p) as [Le|Lt].
      - apply E1; lia.
      - rewrite (Sy p q Hp Hq), (Bs p q), (Rmult_comm (d p)). apply E1; lia. }
    intros p q Hp Hq. destruct (D p Hp) as [dp _], (D q Hq) as [dq _].
    assert (NN : 0 <= eta * (d p * Rabs (v p) * (d q * Rabs (v q)))).
    { pose proof (Rabs_pos (v p)). pose proof (Rabs_pos (v q)). repeat apply Rmult_le_pos; lra. }
    destruct (Nat.eqb_spec p i) as [Ep|Np]; [destruct (Nat.eqb_spec q i) as [Eq|Nq]|].
    - subst p q. rewrite Vi in *. unfold e. lra.
    - destruct (le_lt_dec J q) as [Hj|Hj]; [rewrite (Vz q Hj Nq) in *; lra|].
      pose proof (E2 p q Hp Hq ltac:(lia) ltac:(lia) ltac:(lia)) as E. pose proof (Rle_abs (v p * v q * (a p q - B p q))) as Q. rewrite !Rabs_mult in Q.
      assert (Q2 : Rabs (v p) * Rabs (v q) * Rabs (a p q - B p q) <= Rabs (v p) * Rabs (v q) * (eta * (d p * d q))) by (apply Rmult_le_compat_l; [apply Rmult_le_pos; apply Rabs_pos|exact E]). lra.
    - destruct (le_lt_dec J p) as [Hj|Hj]; [rewrite (Vz p Hj Np) in *; lra|].
      destruct (Nat.eq_dec q i) as [Eq|Nq]; [|destruct (le_lt_dec J q) as [Hj'|Hj']; [rewrite (Vz q Hj' Nq) in *; lra|]].
      + pose proof (E2 p q Hp Hq ltac:(lia) ltac:(lia) ltac:(lia)) as E. pose proof (Rle_abs (v p * v q * (a p q - B p q))) as Q. rewrite !Rabs_mult in Q.
        assert (Q2 : Rabs (v p) * Rabs (v q) * Rabs (a p q - B p q) <= Rabs (v p) * Rabs (v q) * (eta * (d p * d q))) by (apply Rmult_le_compat_l; [apply Rmult_le_pos; apply Rabs_pos|exact E]). lra.
      + pose proof (E2 p q Hp Hq ltac:(lia) ltac:(lia) ltac:(lia)) as E. pose proof (Rle_abs (v p * v q * (a p q - B p q))) as Q. rewrite !Rabs_mult in Q.
        assert (Q2 : Rabs (v p) * Rabs (v q) * Rabs (a p q - B p q) <= Rabs (v p) * Rabs (v q) * (eta * (d p * d q))) by (apply Rmult_le_compat_l; [apply Rmult_le_pos; apply Rabs_pos|exact E]). lra. }
  assert (Q : qform n a v <= qform n B v + (e + eta * (INR n * rsum n (fun p => a p p * (v p * v p))))).
  { unfold qform at 1. eapply Rle_trans; [apply rsum_le; intros p Hp; apply rsum_le; intros q Hq; apply T; assumption|].
    rewrite (rsum_ext n _ (fun p => rsum n (fun q => v p * v q * B p q) + ((if Nat.eqb p i then e else 0) + eta * (d p * Rabs (v p) * rsum n (fun q => d q * Rabs (v q)))))).
    - rewrite rsum_plus. fold (qform n B v). apply Rplus_le_compat_l. rewrite rsum_plus, (rsum_delta n i (fun _ => e)) by lia. apply Rplus_le_compat_l.
      rewrite rsum_scal, rsum_scal_r. apply Rmult_le_compat_l; [exact E0|]. eapply Rle_trans; [apply rsum_sq|]. apply Req_le. f_equal. apply rsum_ext. intros p Hp. destruct (D p Hp) as [_ ->].
      replace (d p * Rabs (v p) * (d p * Rabs (v p))) with (d p * d p * (Rabs (v p) * Rabs (v p))) by ring. rewrite <- Rabs_mult, Rabs_pos_eq; [reflexivity|]. apply Rle_0_sqr.
    - intros p Hp. rewrite rsum_plus. f_equal. rewrite rsum_plus, rsum_scal, rsum_scal. f_equal. destruct (Nat.eqb p i); [rewrite (rsum_delta n i (fun _ => e)) by lia; reflexivity|apply rsum_0]. }
  specialize (H v). rewrite QB in Q. set (s := rsum n (fun p => a p p * (v p * v p))) in *.
  assert (S1 : a i i <= s).
  { unfold s. apply Rle_trans with (rsum n (fun p => if Nat.eqb p i then a p p * (v p * v p) else 0)).
    - rewrite (rsum_delta n i (fun p => a p p * (v p * v p))) by lia. rewrite Vi. lra.
    - apply rsum_le. intros p Hp. destruct (Nat.eqb p i); [lra|]. destruct (D p Hp) as [dp ->]. pose proof (Rle_0_sqr (v p)) as Q0. unfold Rsqr in Q0. apply Rmult_le_pos; [nra|exact Q0]. }
  assert (S2 : (delta - eta * INR n) * a i i <= (delta - eta * INR n) * s) by (apply Rmult_le_compat_l; lra).
  fold (B i i). unfold e in Q. lra.
Qed.
