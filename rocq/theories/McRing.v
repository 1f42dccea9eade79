(** The standard library's [ring] and [field] tactics for mathcomp fields (no plugin needed).
    Use: in a section with [R : realFieldType] (or any subtype of fieldType), write
    [Add Field Rf : (mc_field R).] and then use [mcring]/[mcfield]. *)
From mathcomp Require Import all_ssreflect all_algebra.
From Coq Require Export Ring_theory Field_theory Ring Field.
Set Implicit Arguments.
Unset Strict Implicit.
Unset Printing Implicit Defensive.
Import GRing.Theory.
Local Open Scope ring_scope.

Section Ops.
Variable F : fieldType.
Definition mc_t : Type := GRing.Field.sort F.
Definition mc_zero : mc_t := (0 : F).
Definition mc_one : mc_t := (1 : F).
Definition mc_add (a b : mc_t) : mc_t := (a : F) + b.
Definition mc_mul (a b : mc_t) : mc_t := (a : F) * b.
Definition mc_opp (a : mc_t) : mc_t := - (a : F).
Definition mc_sub (a b : mc_t) : mc_t := (a : F) - b.
Definition mc_inv (a : mc_t) : mc_t := (a : F)^-1.
Definition mc_div (a b : mc_t) : mc_t := (a : F) / b.
Lemma mc_ring : ring_theory mc_zero mc_one mc_add mc_mul mc_sub mc_opp eq.
Proof.
rewrite /mc_add /mc_mul /mc_sub /mc_opp /mc_zero /mc_one.
split => // *; rewrite ?add0r ?mul1r ?addrA ?mulrA ?mulrDl ?subrr //; first exact: addrC; exact: mulrC.
Qed.
Lemma mc_field : field_theory mc_zero mc_one mc_add mc_mul mc_sub mc_opp mc_div mc_inv eq.
Proof.
split => //; [exact: mc_ring|apply/eqP; exact: oner_neq0|].
by move=> p /eqP h; rewrite /mc_mul /mc_inv mulVf.
Qed.
End Ops.

Ltac mc_prep F :=
  lazymatch goal with |- @eq _ ?a ?b => change (@eq (mc_t F) a b) | |- ~ (@eq _ ?a ?b) => change (~ @eq (mc_t F) a b) | _ => idtac end;
  repeat match goal with
  | |- context [@GRing.exp ?Z ?a 2] => change (@GRing.exp Z a 2) with (mc_mul (F := F) a a)
  | |- context [@GRing.add ?Z ?a ?b] => change (@GRing.add Z a b) with (mc_add (F := F) a b)
  | |- context [@GRing.mul ?Z ?a ?b] => change (@GRing.mul Z a b) with (mc_mul (F := F) a b)
  | |- context [@GRing.opp ?Z ?a] => change (@GRing.opp Z a) with (mc_opp (F := F) a)
  | |- context [@GRing.inv ?Z ?a] => change (@GRing.inv Z a) with (mc_inv (F := F) a)
  | |- context [@GRing.natmul ?Z (GRing.one ?r) 2] => change (@GRing.natmul Z (GRing.one r) 2) with (mc_add (mc_one F) (mc_one F))
  | |- context [GRing.zero ?Z] => change (GRing.zero Z) with (mc_zero F)
  | |- context [GRing.one ?Z] => change (GRing.one Z) with (mc_one F)
  end.
Ltac mcring F := mc_prep F; ring.
Ltac mcfield F := mc_prep F; field.

(** identities of sums, differences and multiples of matrices; products are atoms *)
Definition mc_mulmx (F : fieldType) a b c (A : 'M[F]_(a, b)) (B : 'M[F]_(b, c)) : 'M[F]_(a, c) := A *m B.
Definition mc_tr (F : fieldType) a b (A : 'M[F]_(a, b)) : 'M[F]_(b, a) := A^T.
Definition mc_el (F : fieldType) a b (A : 'M[F]_(a, b)) i j : F := A i j.
Ltac mx_norm F :=
  repeat match goal with
  | |- context [@mulmx ?r ?a ?b ?c ?A ?B] => change (@mulmx r a b c A B) with (@mc_mulmx F a b c A B)
  | |- context [@trmx ?r ?a ?b ?A] => change (@trmx r a b A) with (@mc_tr F a b A)
  end.
Ltac mxgroup F :=
  mx_norm F;
  repeat match goal with
  | |- context [@mc_mulmx ?r ?a ?b ?c ?A ?B] => generalize (@mc_mulmx r a b c A B); intro
  | |- context [@mc_tr ?r ?a ?b ?A] => generalize (@mc_tr r a b A); intro
  end;
  apply/matrixP => ? ?; rewrite !mxE;
  repeat match goal with
  | |- context [@fun_of_matrix ?r ?a ?b ?A ?i ?j] => change (@fun_of_matrix r a b A i j) with (@mc_el F a b A i j)
  end;
  mcring F.
