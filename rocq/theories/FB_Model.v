(** Model of FilterBase: /repo/include/state_estimation/filters/filter_base.h and
    filter_base.hpp (every non-debug line).  Debug printing (DEBUG_STATE_ESTIMATION) and the
    std::cerr messages are not modelled. *)
From Coq Require Import List Bool Arith.
From Verif Require Import Outcome.
Import ListNotations.

(** ** Arithmetic of timestamps

    C++ type [double].  [tlt a b] is the C++ [a < b] (and [b > a]), [tle a b] is [a <= b]
    (and [b >= a]); they are separate because neither is the negation of the other in the
    presence of NaN.  [tinf] is std::numeric_limits<double>::infinity(), [tone] is 1.0. *)
Record TimeOps : Type := {
  T :> Type;
  tlt : T -> T -> bool;
  tle : T -> T -> bool;
  tsub : T -> T -> T;
  tadd : T -> T -> T;
  tzero : T;
  tone : T;
  tinf : T
}.
Arguments tlt {t} _ _.
Arguments tle {t} _ _.
Arguments tsub {t} _ _.
Arguments tadd {t} _ _.
Arguments tzero {t}.
Arguments tone {t}.
Arguments tinf {t}.

(** ** What FilterBase is parameterised by

    [V]/[Mx] stand for Eigen::VectorXd / Eigen::MatrixXd.  [Sys] is the complete state of the
    system model object (filter_base.h:244, [SysT* system_model_]) together with any member
    data of the derived filter; [Meas] the state of one measurement model object.  The
    virtual functions myPredict/myCorrect (filter_base.h:228-232) receive and return these
    object states.  User call-backs may have undefined behaviour, hence [outcome]. *)
Record Env (TT : TimeOps) : Type := {
  V : Type;
  Mx : Type;
  vsize : V -> nat;                         (* VectorXd::size() *)
  vempty : V;                               (* VectorXd() *)
  vzero : nat -> V;                         (* VectorXd::Zero(n) *)
  mempty : Mx;                              (* MatrixXd() *)
  Sys : Type;
  Meas : Type;
  (* src/system_models/system_model.cpp:23-25, 68-79 *)
  s_csize : Sys -> nat;
  s_Rc : Sys -> Mx;
  s_setRc : Sys -> Mx -> outcome Sys;
  (* src/filters/filter_model.cpp:63-75 and the virtual processStationaryInput *)
  s_check : Sys -> bool;
  s_isStat : Sys -> V -> V -> outcome bool;
  s_proc : Sys -> V -> V -> outcome Sys;
  s_make : Sys -> V -> Mx -> outcome (V * Mx);
  (* src/measurement_models/measurement_model.cpp:63-66 and filter_model.cpp:63-75 *)
  m_setCov : Meas -> Mx -> outcome Meas;
  m_check : Meas -> bool;
  m_isStat : Meas -> V -> V -> outcome bool;
  m_proc : Meas -> V -> V -> outcome Meas;
  m_make : Meas -> V -> Mx -> outcome (V * Mx);
  (* filter_base.h:228-232 *)
  my_predict : Sys -> V -> Mx -> V -> TT -> outcome (Sys * V * Mx);
  my_correct : Sys -> Meas -> V -> Mx -> V -> TT -> outcome (Sys * Meas * V * Mx)
}.
Arguments V {TT} e.
Arguments Mx {TT} e.
Arguments vsize {TT e} _.
Arguments vempty {TT e}.
Arguments vzero {TT e} _.
Arguments mempty {TT e}.
Arguments Sys {TT} e.
Arguments Meas {TT} e.
Arguments s_csize {TT e} _.
Arguments s_Rc {TT e} _.
Arguments s_setRc {TT e} _ _.
Arguments s_check {TT e} _.
Arguments s_isStat {TT e} _ _ _.
Arguments s_proc {TT e} _ _ _.
Arguments s_make {TT e} _ _ _.
Arguments m_setCov {TT e} _ _.
Arguments m_check {TT e} _.
Arguments m_isStat {TT e} _ _ _.
Arguments m_proc {TT e} _ _ _.
Arguments m_make {TT e} _ _ _.
Arguments my_predict {TT e} _ _ _ _ _.
Arguments my_correct {TT e} _ _ _ _ _ _.

(** filter_base.h:38-60, struct FilterInput.  The pointer [model] is an index into the heap
    of measurement model objects ([None] is nullptr). *)
Record FInput {TT : TimeOps} (E : Env TT) : Type := mkInput {
  i_data : V E;
  i_cov : Mx E;
  i_ts : TT;
  i_ctl : bool;
  i_model : option nat
}.
Arguments mkInput {TT E} _ _ _ _ _.
Arguments i_data {TT E} _.
Arguments i_cov {TT E} _.
Arguments i_ts {TT E} _.
Arguments i_ctl {TT E} _.
Arguments i_model {TT E} _.

(** filter_base.h:65-74, struct FilterState. *)
Record FState {TT : TimeOps} (E : Env TT) : Type := mkFState {
  f_x : V E;
  f_cov : Mx E;
  f_ts : TT;
  f_prev : FInput E
}.
Arguments mkFState {TT E} _ _ _ _.
Arguments f_x {TT E} _.
Arguments f_cov {TT E} _.
Arguments f_ts {TT E} _.
Arguments f_prev {TT E} _.

(** filter_base.h:78-87, struct Parameters. *)
Record Params (TT : TimeOps) : Type := mkParams {
  p_rewind : bool;      (* rewind_history *)
  p_window : TT;        (* history_window_sec *)
  p_past : bool         (* allow_measurements_in_past *)
}.
Arguments mkParams {TT} _ _ _.
Arguments p_rewind {TT} _.
Arguments p_window {TT} _.
Arguments p_past {TT} _.

(** The data members of FilterBase (filter_base.h:234-244, 297-302) that an input can change,
    without history and queues: filter_state_, prev_control_, prev_control_covariance_ and the
    model objects behind the pointers. *)
Record Core {TT : TimeOps} (E : Env TT) : Type := mkCore {
  c_cur : FState E;
  c_pc : V E;
  c_pcc : Mx E;
  c_sys : Sys E;
  c_meas : list (Meas E)
}.
Arguments mkCore {TT E} _ _ _ _ _.
Arguments c_cur {TT E} _.
Arguments c_pc {TT E} _.
Arguments c_pcc {TT E} _.
Arguments c_sys {TT E} _.
Arguments c_meas {TT E} _.

(** The whole filter object.  [history_] front is the head of the list. *)
Record St {TT : TimeOps} (E : Env TT) : Type := mkSt {
  par : Params TT;
  core : Core E;
  hist : list (FState E);
  cq : list (FInput E);
  mq : list (FInput E)
}.
Arguments mkSt {TT E} _ _ _ _ _.
Arguments par {TT E} _.
Arguments core {TT E} _.
Arguments hist {TT E} _.
Arguments cq {TT E} _.
Arguments mq {TT E} _.

(** The parts of the C++ standard library that are not fixed by its specification:
    [lib_strict = true] enforces the iterator invalidation rules of the standard for
    std::deque::pop_back ([deque.modifiers]); [false] is the behaviour of libstdc++, where the
    reverse iterator stays usable.  [lib_sort] is std::sort (unstable: any sorted
    permutation). *)
Record Lib {TT : TimeOps} (E : Env TT) : Type := mkLib {
  lib_strict : bool;
  lib_sort : list (FInput E) -> list (FInput E)
}.
Arguments mkLib {TT E} _ _.
Arguments lib_strict {TT E} _.
Arguments lib_sort {TT E} _ _.

Fixpoint list_set {A : Type} (l : list A) (i : nat) (a : A) : list A :=
  match l, i with
  | [], _ => []
  | _ :: l', 0 => a :: l'
  | b :: l', S i' => b :: list_set l' i' a
  end.

Section Model.
Context {TT : TimeOps} {E : Env TT} (L : Lib E).

Notation FInput := (FInput E).
Notation FState := (FState E).
Notation Core := (Core E).
Notation St := (St E).

(** ** Getters: filter_base.hpp:42-55 *)
Definition getState (s : St) : V E := f_x (c_cur (core s)).
Definition getCovariance (s : St) : Mx E := f_cov (c_cur (core s)).
Definition getStateTime (s : St) : TT := f_ts (c_cur (core s)).

(** ** applyControlInput, filter_base.hpp:330-374 *)
Definition set_est (c : Core) (x : V E) (P : Mx E) : Core :=
  mkCore (mkFState x P (f_ts (c_cur c)) (f_prev (c_cur c))) (c_pc c) (c_pcc c) (c_sys c) (c_meas c).
Definition set_ts (c : Core) (t : TT) : Core :=
  mkCore (mkFState (f_x (c_cur c)) (f_cov (c_cur c)) t (f_prev (c_cur c)))
         (c_pc c) (c_pcc c) (c_sys c) (c_meas c).
Definition set_prev (c : Core) (i : FInput) : Core :=
  mkCore (mkFState (f_x (c_cur c)) (f_cov (c_cur c)) (f_ts (c_cur c)) i)
         (c_pc c) (c_pcc c) (c_sys c) (c_meas c).
Definition set_pc (c : Core) (u : V E) (R : Mx E) : Core :=
  mkCore (c_cur c) u R (c_sys c) (c_meas c).
Definition set_sys (c : Core) (sy : Sys E) : Core :=
  mkCore (c_cur c) (c_pc c) (c_pcc c) sy (c_meas c).
Definition set_meas (c : Core) (ms : list (Meas E)) : Core :=
  mkCore (c_cur c) (c_pc c) (c_pcc c) (c_sys c) ms.

(** filter_base.hpp:334-350, choice of the control and its covariance *)
Definition choose_control (c : Core) (inp : FInput) : (V E * Mx E) * Core :=
  if 0 <? vsize (i_data inp) then
    ((i_data inp, i_cov inp), set_pc c (i_data inp) (i_cov inp))
  else if 0 <? vsize (c_pc c) then
    ((c_pc c, c_pcc c), c)
  else
    ((vzero (s_csize (c_sys c)), s_Rc (c_sys c)), c).

(** filter_base.hpp:352-373: the effect of a control on the estimate once the control [u] and
    its covariance [cov] are chosen; [data] is [input.data], which is what the stationary
    predicate is given (line 353). *)
Definition control_update (sy : Sys E) (x : V E) (P : Mx E) (data u : V E) (cov : Mx E) (dt : TT)
  : outcome (Sys E * V E * Mx E) :=
  let* st := (if s_check sy then s_isStat sy x data else Ok false) in
  if negb st then
    let* sy1 := s_setRc sy cov in
    my_predict sy1 x P u dt
  else
    let* sy1 := s_proc sy x data in
    let* (x1, P1) := s_make sy1 x P in
    Ok (sy1, x1, P1).

Definition applyControlInput (c0 : Core) (inp : FInput) : outcome Core :=
  let dt := tsub (i_ts inp) (f_ts (c_cur c0)) in
  let '((u, cov), c) := choose_control c0 inp in
  let* (sy, x, P) :=
    control_update (c_sys c) (f_x (c_cur c)) (f_cov (c_cur c)) (i_data inp) u cov dt in
  Ok (set_est (set_sys c sy) x P).

(** ** applyMeasurementInput, filter_base.hpp:376-412 *)
(** filter_base.hpp:379-388 *)
Definition advance_if_needed (c : Core) (inp : FInput) (dt : TT) : outcome Core :=
  if tlt tzero dt then
    let adv := mkInput (c_pc c) (c_pcc c) (i_ts inp) true None in
    let* c1 := applyControlInput c adv in
    Ok (set_ts c1 (tadd (f_ts (c_cur c1)) dt))
  else Ok c.

(** filter_base.hpp:391-411, the effect of a measurement on the estimate and the models *)
Definition meas_update (sy : Sys E) (m0 : Meas E) (x : V E) (P : Mx E) (z : V E) (Q : Mx E)
    (dt : TT) : outcome (Sys E * Meas E * V E * Mx E) :=
  let* m1 := m_setCov m0 Q in
  let* st := (if m_check m1 then m_isStat m1 x z else Ok false) in
  if negb st then my_correct sy m1 x P z dt
  else
    let* m2 := m_proc m1 x z in
    let* (x1, P1) := m_make m2 x P in
    Ok (sy, m2, x1, P1).

Definition applyMeasurementInput (c0 : Core) (inp : FInput) : outcome Core :=
  let dt := tsub (i_ts inp) (f_ts (c_cur c0)) in
  let* c := advance_if_needed c0 inp dt in
  match i_model inp with
  | None => Ub ub_null_model
  | Some k =>
    match nth_error (c_meas c) k with
    | None => Ub ub_null_model
    | Some m0 =>
      let* (sy, m, x, P) :=
        meas_update (c_sys c) m0 (f_x (c_cur c)) (f_cov (c_cur c)) (i_data inp) (i_cov inp) dt in
      Ok (set_est (set_meas (set_sys c sy) (list_set (c_meas c) k m)) x P)
    end
  end.

(** ** applyInput, filter_base.hpp:306-328.  [input_core] is the part after the push to the
    history. *)
Definition input_core (c : Core) (inp : FInput) : outcome Core :=
  let dt := tsub (i_ts inp) (f_ts (c_cur c)) in
  let* c1 :=
    (if i_ctl inp then
       let* c1 := applyControlInput c inp in
       Ok (set_ts c1 (tadd (f_ts (c_cur c1)) dt))
     else applyMeasurementInput c inp) in
  Ok (set_prev c1 inp).

Definition applyInput (s : St) (inp : FInput) : outcome St :=
  let h := if p_rewind (par s) then hist s ++ [c_cur (core s)] else hist s in
  let* c := input_core (core s) inp in
  Ok (mkSt (par s) c h (cq s) (mq s)).

(** ** Iterating a std::deque with a reverse iterator while calling pop_back()

    The reverse iterator is represented by the index of its base: [base = S b] refers to
    element [b]; [base = 0] is rend().  [pop_ok] is the validity of the iterator after a
    pop_back() of a deque of [n] elements under the rules of the standard: the iterators to the
    last element and the past-the-end iterator are invalidated. *)
Definition pop_ok (base n : nat) : bool :=
  negb (lib_strict L) || (S base <? n).

(** filter_base.hpp:281-286 *)
Fixpoint rewind_loop (ts : TT) (base : nat) (h post : list FState)
  : outcome (list FState * list FState) :=
  match base with
  | 0 => Ok (h, post)
  | S b =>
    match nth_error h b with
    | None => Ub ub_oob
    | Some s =>
      if tle ts (f_ts s) then
        match h with
        | [] => Ub ub_empty_deque
        | _ :: _ =>
          if pop_ok base (length h)
          then rewind_loop ts b (removelast h) (post ++ [s])
          else Ub ub_bad_iter
        end
      else rewind_loop ts b h post
    end
  end.

Definition last_opt {A : Type} (l : list A) : option A := nth_error l (length l - 1).

(** ** rewindHistory, filter_base.hpp:251-304.  Returns the returned flag, the new filter and
    the states appended to [post_states]. *)
Definition set_cur (c : Core) (f : FState) : Core :=
  mkCore f (c_pc c) (c_pcc c) (c_sys c) (c_meas c).

Definition rewindHistory (s : St) (ts : TT) : outcome (bool * St * list FState) :=
  if tlt (f_ts (c_cur (core s))) ts then Ok (true, s, [])
  else
    match hist s with
    | front :: _ =>
      if tlt (f_ts front) ts then
        let* (h1, post) := rewind_loop ts (length (hist s)) (hist s) [c_cur (core s)] in
        match last_opt h1 with
        | None => Ub ub_empty_deque
        | Some back =>
          Ok (true,
              mkSt (par s) (set_cur (core s) back) (removelast h1) (cq s) (mq s),
              rev post)
        end
      else Ok (false, s, [])
    | [] => Ok (false, s, [])
    end.

(** ** pruneHistory, filter_base.hpp:422-443 *)
Fixpoint prune_loop (cutoff : TT) (base : nat) (h : list FState) : outcome (list FState) :=
  match base with
  | 0 => Ok h
  | S b =>
    match nth_error h b with
    | None => Ub ub_oob
    | Some s =>
      if tlt (f_ts s) cutoff then
        match h with
        | [] => Ub ub_empty_deque
        | _ :: _ =>
          if pop_ok base (length h) then prune_loop cutoff b (removelast h) else Ub ub_bad_iter
        end
      else Ok h
    end
  end.

Definition pruneHistory (s : St) : outcome St :=
  if negb (p_rewind (par s)) then Ok s
  else
    let cutoff := tsub (f_ts (c_cur (core s))) (p_window (par s)) in
    let* h := prune_loop cutoff (length (hist s)) (hist s) in
    Ok (mkSt (par s) (core s) h (cq s) (mq s)).

(** ** applyBatchInputs, filter_base.hpp:414-420 *)
Definition applyBatchInputs (s : St) (l : list FInput) : outcome St :=
  let* s1 := ofold applyInput l s in pruneHistory s1.

(** ** predict(double), filter_base.hpp:57-71 *)
Definition predict_t (s : St) (ts : TT) : outcome St :=
  if tlt (getStateTime s) ts then
    let* s1 := applyInput s (mkInput vempty (s_Rc (c_sys (core s))) ts true None) in
    pruneHistory s1
  else Ok s.

(** The part common to predict(u, t) and correct(z, Q, t, m) with rewind_history on,
    filter_base.hpp:93-112 and 136-152: rewind if the input is older than the estimate, then
    apply it followed by the inputs that had been applied after it.  [None] is the early
    return with a message on std::cerr. *)
Definition apply_late (s : St) (inp : FInput) : outcome St :=
  let* (ok, s1, prev_states) :=
    (if tlt (i_ts inp) (getStateTime s) then rewindHistory s (i_ts inp) else Ok (true, s, [])) in
  if negb ok then Ok s1
  else applyBatchInputs s1 (inp :: map f_prev prev_states).

(** ** predict(u, t), filter_base.hpp:73-114 *)
Definition predict_u (s : St) (u : V E) (ts : TT) : outcome St :=
  let inp := mkInput u (s_Rc (c_sys (core s))) ts true None in
  if negb (p_rewind (par s)) then
    if tle (getStateTime s) ts then
      let* s1 := applyInput s inp in pruneHistory s1
    else Ok s
  else apply_late s inp.

(** ** correct(z, Q, t, m), filter_base.hpp:116-154 *)
Definition correct (s : St) (z : V E) (Q : Mx E) (ts : TT) (m : option nat) : outcome St :=
  let inp := mkInput z Q ts false m in
  if negb (p_rewind (par s)) then
    let dt := tsub ts (getStateTime s) in
    if p_past (par s) || tle tzero dt then
      let* s1 := applyInput s inp in pruneHistory s1
    else Ok s
  else apply_late s inp.

(** ** Queues: filter_base.hpp:156-168, 215-223 *)
Definition enqueueControl (s : St) (u : V E) (ts : TT) : St :=
  mkSt (par s) (core s) (hist s) (cq s ++ [mkInput u (s_Rc (c_sys (core s))) ts true None]) (mq s).
Definition enqueueMeasurement (s : St) (z : V E) (Q : Mx E) (ts : TT) (m : option nat) : St :=
  mkSt (par s) (core s) (hist s) (cq s) (mq s ++ [mkInput z Q ts false m]).
Definition clearControlQueue (s : St) : St :=
  mkSt (par s) (core s) (hist s) [] (mq s).
Definition clearMeasurementQueue (s : St) : St :=
  mkSt (par s) (core s) (hist s) (cq s) [].

(** ** pruneQueue, filter_base.hpp:445-456 (the erase loop) *)
Fixpoint prune_queue_loop (oldest : TT) (q : list FInput) : list FInput :=
  match q with
  | [] => []
  | i :: q' => if tlt (i_ts i) oldest then prune_queue_loop oldest q'
               else i :: prune_queue_loop oldest q'
  end.
Definition pruneQueue (s : St) (q : list FInput) : list FInput :=
  if p_rewind (par s) then
    match hist s with
    | front :: _ => prune_queue_loop (f_ts front) q
    | [] => q
    end
  else q.

(** std::min(a, b) of doubles *)
Definition tmin (a b : TT) : TT := if tlt b a then b else a.

(** The precondition of std::sort on the comparator, on the elements of the range
    ([alg.sorting]: strict weak ordering). *)
Definition swo_ok (l : list TT) : bool :=
  forallb (fun a => negb (tlt a a) &&
    forallb (fun b => forallb (fun c =>
      implb (tlt a b && tlt b c) (tlt a c) &&
      implb (negb (tlt a b) && negb (tlt b a) && (negb (tlt b c) && negb (tlt c b)))
            (negb (tlt a c) && negb (tlt c a))) l) l) l.

Definition std_sort (l : list FInput) : outcome (list FInput) :=
  if swo_ok (map i_ts l) then Ok (lib_sort L l) else Ub ub_sort.

(** ** processQueues, filter_base.hpp:170-213.  The result flag of rewindHistory is ignored by
    the code (line 197). *)
Definition processQueues (s0 : St) : outcome St :=
  let s := mkSt (par s0) (core s0) (hist s0) (pruneQueue s0 (cq s0)) (pruneQueue s0 (mq s0)) in
  let oldest := fold_left tmin (map i_ts (cq s ++ mq s)) tinf in
  let* (s1, post) :=
    (if p_rewind (par s)
     then let* (_, s1, post) := rewindHistory s oldest in Ok (s1, post)
     else Ok (s, [])) in
  let* inputs := std_sort (map f_prev post ++ cq s1 ++ mq s1) in
  let* s2 := applyBatchInputs s1 inputs in
  Ok (clearMeasurementQueue (clearControlQueue s2)).

(** ** revertToState, filter_base.hpp:225-242 *)
Definition revertToState (s : St) (ts : TT) : outcome (St * bool) :=
  let* (ok, s1, _) := rewindHistory s ts in
  if ok then Ok (clearMeasurementQueue (clearControlQueue s1), true)
  else Ok (s1, false).

(** ** clear and initialize, filter_base.hpp:244-249 and 26-40.  Note what is not reset:
    filter_state_.prev_input, prev_control_ and prev_control_covariance_. *)
Definition initialize (s : St) (x : V E) (P : Mx E) (t : TT) : St :=
  mkSt (par s) (set_ts (set_est (core s) x P) t) [] [] [].

(** ** Construction, filter_base.hpp:9-14 and the member initialisers of filter_base.h *)
Definition default_input : FInput := mkInput vempty mempty tzero true None.
Definition default_fstate : FState := mkFState vempty mempty tzero default_input.
Definition default_params : Params TT := mkParams false tone false.
Definition new_filter (sy : Sys E) (ms : list (Meas E)) (x : V E) (P : Mx E) (t : TT) : St :=
  initialize (mkSt default_params (mkCore default_fstate vempty mempty sy ms) [] [] []) x P t.

(** ** The public interface as operations.  [OpSys]/[OpMeas] are arbitrary calls by the user on
    the model objects between filter calls (setControlCovariance, setActiveStates, ...);
    [OpParams] is assignment through parameters() (filter_base.hpp:16-24). *)
Inductive Op : Type :=
| OpInit (x : V E) (P : Mx E) (t : TT)
| OpPredictT (t : TT)
| OpPredictU (u : V E) (t : TT)
| OpCorrect (z : V E) (Q : Mx E) (t : TT) (m : option nat)
| OpEnqC (u : V E) (t : TT)
| OpEnqM (z : V E) (Q : Mx E) (t : TT) (m : option nat)
| OpProcess
| OpClearC
| OpClearM
| OpRevert (t : TT)
| OpParams (p : Params TT)
| OpSys (f : Sys E -> Sys E)
| OpMeas (f : list (Meas E) -> list (Meas E)).

Definition step (s : St) (o : Op) : outcome St :=
  match o with
  | OpInit x P t => Ok (initialize s x P t)
  | OpPredictT t => predict_t s t
  | OpPredictU u t => predict_u s u t
  | OpCorrect z Q t m => correct s z Q t m
  | OpEnqC u t => Ok (enqueueControl s u t)
  | OpEnqM z Q t m => Ok (enqueueMeasurement s z Q t m)
  | OpProcess => processQueues s
  | OpClearC => Ok (clearControlQueue s)
  | OpClearM => Ok (clearMeasurementQueue s)
  | OpRevert t => let* (s1, _) := revertToState s t in Ok s1
  | OpParams p => Ok (mkSt p (core s) (hist s) (cq s) (mq s))
  | OpSys f => Ok (mkSt (par s) (set_sys (core s) (f (c_sys (core s)))) (hist s) (cq s) (mq s))
  | OpMeas f => Ok (mkSt (par s) (set_meas (core s) (f (c_meas (core s)))) (hist s) (cq s) (mq s))
  end.

Definition run (ops : list Op) (s : St) : outcome St := ofold step ops s.

End Model.

Arguments OpInit {TT E} _ _ _.
Arguments OpPredictT {TT E} _.
Arguments OpPredictU {TT E} _ _.
Arguments OpCorrect {TT E} _ _ _ _.
Arguments OpEnqC {TT E} _ _.
Arguments OpEnqM {TT E} _ _ _ _.
Arguments OpProcess {TT E}.
Arguments OpClearC {TT E}.
Arguments OpClearM {TT E}.
Arguments OpRevert {TT E} _.
Arguments OpParams {TT E} _.
Arguments OpSys {TT E} _.
Arguments OpMeas {TT E} _.
