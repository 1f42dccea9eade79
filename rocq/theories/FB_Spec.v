(** Specification vocabulary for out-of-order processing, independent of how the filter stores
    its history: which inputs a sequence of calls has delivered, and what "in time order"
    means. *)
From Coq Require Import List Bool Arith Sorted Permutation.
From Verif Require Import Outcome FB_Model.
Import ListNotations.

Section Spec.
Context {TT : TimeOps} {E : Env TT}.

(** the input delivered by a call; [R] is the control covariance of the system model *)
Definition ctl_input (R : Mx E) (u : V E) (t : TT) : FInput E := mkInput u R t true None.
Definition meas_input (z : V E) (Q : Mx E) (t : TT) (m : option nat) : FInput E := mkInput z Q t false m.

(** the call that delivers an input directly *)
Definition call_of (i : FInput E) : Op (E := E) :=
  if i_ctl i then OpPredictU (i_data i) (i_ts i)
  else OpCorrect (i_data i) (i_cov i) (i_ts i) (i_model i).

(** inputs delivered so far: processed, and waiting in the queues *)
Record Delivered : Type := mkDel { processed : list (FInput E); waiting : list (FInput E) }.

Definition deliver (R : Mx E) (d : Delivered) (o : Op (E := E)) : Delivered :=
  match o with
  | OpPredictT t => mkDel (processed d ++ [ctl_input R vempty t]) (waiting d)
  | OpPredictU u t => mkDel (processed d ++ [ctl_input R u t]) (waiting d)
  | OpCorrect z Q t m => mkDel (processed d ++ [meas_input z Q t m]) (waiting d)
  | OpEnqC u t => mkDel (processed d) (waiting d ++ [ctl_input R u t])
  | OpEnqM z Q t m => mkDel (processed d) (waiting d ++ [meas_input z Q t m])
  | OpProcess => mkDel (processed d ++ waiting d) []
  | OpClearC => mkDel (processed d) (filter (fun i => negb (i_ctl i)) (waiting d))
  | OpClearM => mkDel (processed d) (filter i_ctl (waiting d))
  | _ => d
  end.
Definition delivered (R : Mx E) (ops : list (Op (E := E))) : Delivered :=
  fold_left (deliver R) ops (mkDel [] []).

(** strictly increasing timestamps *)
Definition in_time_order (l : list (FInput E)) : Prop :=
  StronglySorted (fun a b => tlt (i_ts a) (i_ts b) = true) l.

(** an input that carries a control vector *)
Definition is_control (i : FInput E) : Prop := i_ctl i = true /\ 0 < vsize (i_data i).

(** The restriction under which mixing works: an input without a control vector (a measurement)
    is never processed after a control that is newer than it.  Late controls are
    unrestricted. *)
Definition newer_than_controls (t : TT) (l : list (FInput E)) : Prop :=
  Forall (fun c => is_control c -> tlt (i_ts c) t = true) l.
Definition mergeable (i : FInput E) (l : list (FInput E)) : Prop :=
  is_control i \/ newer_than_controls (i_ts i) l.

Definition allowed (R : Mx E) (d : Delivered) (o : Op (E := E)) : Prop :=
  match o with
  | OpPredictT t => Forall (fun i => tlt (i_ts i) t = true) (processed d)
  | OpPredictU u t => mergeable (ctl_input R u t) (processed d)
  | OpCorrect z Q t m => mergeable (meas_input z Q t m) (processed d)
  | OpEnqC _ _ | OpEnqM _ _ _ _ | OpClearC | OpClearM => True
  | OpProcess => (* only the oldest of the waiting inputs matters *)
      forall i, In i (waiting d) ->
        (forall j, In j (waiting d) -> tle (i_ts i) (i_ts j) = true) ->
        mergeable i (processed d)
  | _ => False
  end.

Fixpoint all_allowed (R : Mx E) (d : Delivered) (ops : list (Op (E := E))) : Prop :=
  match ops with
  | [] => True
  | o :: ops' => allowed R d o /\ all_allowed R (deliver R d o) ops'
  end.

(** timestamps delivered by a sequence of calls *)
Definition op_ts (o : Op (E := E)) : list TT :=
  match o with
  | OpPredictT t | OpPredictU _ t | OpCorrect _ _ t _ | OpEnqC _ t | OpEnqM _ _ t _ => [t]
  | _ => []
  end.
Definition timestamps (ops : list (Op (E := E))) : list TT := flat_map op_ts ops.

(** std::sort: any sorted permutation, when the comparator is a strict weak order *)
Definition SortOk (L : Lib E) : Prop := forall l,
  swo_ok (map i_ts l) = true ->
  Permutation (lib_sort L l) l /\
  StronglySorted (fun a b => tlt (i_ts b) (i_ts a) = false) (lib_sort L l).
End Spec.

(** ** What one control or measurement does to the estimate

    A relational description, independent of the order of the statements in the code.  [d] is
    the data shown to the stationary predicate. *)
Section Effects.
Context {TT : TimeOps} {E : Env TT}.

(** the stationary predicate is not enabled, or answers "moving" *)
Definition moving_sys (sy : Sys E) (x d : V E) : Prop := s_check sy = false \/ s_isStat sy x d = Ok false.
Definition still_sys (sy : Sys E) (x d : V E) : Prop := s_check sy = true /\ s_isStat sy x d = Ok true.
Definition moving_meas (m : Meas E) (x z : V E) : Prop := m_check m = false \/ m_isStat m x z = Ok false.
Definition still_meas (m : Meas E) (x z : V E) : Prop := m_check m = true /\ m_isStat m x z = Ok true.

(** control [u] with covariance [R] over [dt] *)
Inductive ControlEffect (sy : Sys E) (x : V E) (P : Mx E) (d u : V E) (R : Mx E) (dt : TT)
  (sy' : Sys E) (x' : V E) (P' : Mx E) : Prop :=
| CE_moving sy1 : moving_sys sy x d -> s_setRc sy R = Ok sy1 ->
    my_predict sy1 x P u dt = Ok (sy', x', P') -> ControlEffect sy x P d u R dt sy' x' P'
| CE_still : still_sys sy x d -> s_proc sy x d = Ok sy' ->
    s_make sy' x P = Ok (x', P') -> ControlEffect sy x P d u R dt sy' x' P'.

(** measurement [z] with covariance [Q]; [dt] is what the model is given *)
Inductive MeasEffect (sy : Sys E) (m : Meas E) (x : V E) (P : Mx E) (z : V E) (Q : Mx E) (dt : TT)
  (sy' : Sys E) (m' : Meas E) (x' : V E) (P' : Mx E) : Prop :=
| ME_moving m1 : m_setCov m Q = Ok m1 -> moving_meas m1 x z ->
    my_correct sy m1 x P z dt = Ok (sy', m', x', P') -> MeasEffect sy m x P z Q dt sy' m' x' P'
| ME_still m1 : m_setCov m Q = Ok m1 -> still_meas m1 x z -> sy' = sy ->
    m_proc m1 x z = Ok m' -> m_make m' x P = Ok (x', P') -> MeasEffect sy m x P z Q dt sy' m' x' P'.

(** the control used when none is supplied: the stored one, or the null control *)
Inductive default_control (s : St E) : V E -> Mx E -> Prop :=
| DC_last : 0 < vsize (c_pc (core s)) -> default_control s (c_pc (core s)) (c_pcc (core s))
| DC_null : vsize (c_pc (core s)) = 0 ->
    default_control s (vzero (s_csize (c_sys (core s)))) (s_Rc (c_sys (core s))).
End Effects.
