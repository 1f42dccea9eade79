(** Outcomes of modelled C++ code.

    [Ok a] is normal termination with result [a].  [Ub c] says that the C++ code
    leaves the defined/meaningful behaviours: undefined behaviour of the language or
    the standard library, a violated Eigen/assert precondition (undefined with
    NDEBUG), or the production of non-numbers (inverse of a singular matrix).  It is a
    separate outcome, so that no theorem can hold because of a totalised default. *)
From Coq Require Import List Bool.
Import ListNotations.

Inductive ub : Type :=
| ub_null_model      (* call through a null / dangling measurement model pointer *)
| ub_empty_deque     (* back()/pop_back() of an empty container *)
| ub_bad_iter        (* use of an invalidated iterator *)
| ub_sort            (* std::sort with a comparator that is no strict weak order *)
| ub_dim             (* operands of the wrong size (assert / Eigen assertion) *)
| ub_oob             (* element access out of bounds *)
| ub_uninit          (* read of an uninitialised value *)
| ub_singular        (* inverse of a singular matrix: inf/NaN entries *)
| ub_overflow        (* signed integer overflow *)
| ub_diverges.       (* the loop does not terminate *)

Inductive outcome (A : Type) : Type :=
| Ok (a : A)
| Ub (c : ub).
Arguments Ok {A} a.
Arguments Ub {A} c.

Definition obind {A B : Type} (x : outcome A) (f : A -> outcome B) : outcome B :=
  match x with Ok a => f a | Ub c => Ub c end.

Notation "'let*' x := e 'in' f" := (obind e (fun x => f))
  (at level 200, x pattern, e at level 100, f at level 200, right associativity).

Definition omap {A B : Type} (f : A -> B) (x : outcome A) : outcome B :=
  obind x (fun a => Ok (f a)).

Fixpoint ofold {A S : Type} (f : S -> A -> outcome S) (l : list A) (s : S) : outcome S :=
  match l with
  | [] => Ok s
  | a :: l' => let* s' := f s a in ofold f l' s'
  end.

Definition is_ok {A : Type} (x : outcome A) : bool :=
  match x with Ok _ => true | Ub _ => false end.

Lemma obind_ok {A B} (x : outcome A) (f : A -> outcome B) b :
  obind x f = Ok b -> exists a, x = Ok a /\ f a = Ok b.
Proof. destruct x as [a|c]; simpl; [eauto | discriminate]. Qed.

Lemma obind_assoc {A B C} (x : outcome A) (f : A -> outcome B) (g : B -> outcome C) :
  obind (obind x f) g = obind x (fun a => obind (f a) g).
Proof. destruct x; reflexivity. Qed.

Lemma obind_ext {A B} (x : outcome A) (f g : A -> outcome B) :
  (forall a, x = Ok a -> f a = g a) -> obind x f = obind x g.
Proof. destruct x; simpl; auto. Qed.

Lemma ofold_app {A S} (f : S -> A -> outcome S) l1 l2 s :
  ofold f (l1 ++ l2) s = obind (ofold f l1 s) (ofold f l2).
Proof.
  revert s; induction l1 as [|a l1 IH]; intros s; simpl; [reflexivity|].
  destruct (f s a); simpl; auto.
Qed.

Lemma ofold_ind {A S} (f : S -> A -> outcome S) (I : S -> Prop) (Pa : A -> Prop) :
  (forall s a s', I s -> Pa a -> f s a = Ok s' -> I s') ->
  forall l s s', I s -> Forall Pa l -> ofold f l s = Ok s' -> I s'.
Proof.
  intros Hstep l; induction l as [|a l IH]; intros s s' Hs Hl H; simpl in H.
  - injection H as <-; exact Hs.
  - inversion Hl as [|a0 l0 Ha Hl']; subst.
    apply obind_ok in H as (s1 & E1 & E2). eauto.
Qed.
