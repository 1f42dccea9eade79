(** src/definitions/planar_2d_motion.cpp on vectors of any length with the usage argument, in exact real
    arithmetic.  [Angles] models the same functions on full state vectors. *)
From Coq Require Import Reals List Lra.
From Verif Require Import Outcome Angles.
Import ListNotations.
Open Scope R_scope.

(** Eigen: element-wise operations on vectors of the same size *)
Fixpoint vzip (f : R -> R -> R) (a b : list R) : outcome (list R) :=
  match a, b with
  | [], [] => Ok []
  | x :: a', y :: b' => let* l := vzip f a' b' in Ok (f x y :: l)
  | _, _ => Ub ub_dim
  end.
(** v(i) read and v(i) = x *)
Definition vget (v : list R) (i : nat) : outcome R :=
  match nth_error v i with Some x => Ok x | None => Ub ub_oob end.
Fixpoint vput (v : list R) (i : nat) (x : R) : outcome (list R) :=
  match v, i with
  | [], _ => Ub ub_oob
  | _ :: v', O => Ok (x :: v')
  | y :: v', S j => let* l := vput v' j x in Ok (y :: l)
  end.
(** planar_2d_motion.cpp:7-14 *)
Definition p2v_addState (lhs rhs : list R) (usage : list bool) : outcome (list R) :=
  let* result := vzip Rplus lhs rhs in
  let* a := vget result p2_PSI in
  let* a := constrainAngle a in
  vput result p2_PSI a.
(** :16-23 *)
Definition p2v_subtractState (lhs rhs : list R) (usage : list bool) : outcome (list R) :=
  let* result := vzip Rminus lhs rhs in
  let* a := vget lhs p2_PSI in
  let* b := vget rhs p2_PSI in
  vput result p2_PSI (angleDifference a b).
(** :25-39; X has [rows] rows, its columns are the list *)
Definition p2v_row (X : list (list R)) (i : nat) : outcome (list R) :=
  ofold (fun (acc : list R) (c : list R) => let* x := vget c i in Ok (acc ++ [x])) X [].
Definition p2v_weightedSumOfStates (w : list R) (rows : nat) (X : list (list R)) (usage : list bool) : outcome (list R) :=
  if Nat.eqb (length w) (length X) then
    let* X_sum := ofold (fun (acc : list R) (wx : R * list R) => vzip Rplus acc (map (Rmult (fst wx)) (snd wx))) (combine w X) (repeat 0 rows) in
    (* X.row(6) of a matrix with fewer rows *)
    let* row := (if Nat.ltb p2_PSI rows then p2v_row X p2_PSI else Ub ub_oob) in
    let* a := weightedAngleSum w row in
    vput X_sum p2_PSI a
  else Ub ub_dim.
