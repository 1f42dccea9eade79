(** A concrete algorithm for witnesses: the "estimate" is the trace of everything the
    algorithm was asked to do.  Two runs of FilterBase differ on some algorithm only if
    they differ on this one in an observable way, so witnesses stated with it show exactly
    what the filter base class does. *)
From Coq Require Import ZArith Bool List.
From Verif Require Import Outcome FB_Model FB_Time.
Import ListNotations.

Inductive tok (TT : TimeOps) : Type :=
| TNum (z : Z)                                  (* a number *)
| TPred (u : list Z) (R : Z) (dt : TT)          (* prediction with control u, covariance R *)
| TCorr (z : list Z) (Q : Z) (dt : TT)          (* correction *)
| TStat.                                        (* made stationary *)
Arguments TNum {TT} _.
Arguments TPred {TT} _ _ _.
Arguments TCorr {TT} _ _ _.
Arguments TStat {TT}.

Definition nums {TT} (l : list (tok TT)) : list Z :=
  flat_map (fun k => match k with TNum z => [z] | _ => [] end) l.

(** Sys: control covariance, and the stationary predicate (None: not set).  The control size is
    [t_m] everywhere. *)
Record TSys (TT : TimeOps) : Type := mkTSys {
  t_m : nat;
  t_Rc : Z;
  t_pred : option (list (tok TT) -> list (tok TT) -> outcome bool)
}.
Arguments mkTSys {TT} _ _ _.
Arguments t_m {TT} _.
Arguments t_Rc {TT} _.
Arguments t_pred {TT} _.

Definition TraceEnv (TT : TimeOps) : Env TT := {|
  V := list (tok TT);
  Mx := Z;
  vsize := @length (tok TT);
  vempty := [];
  vzero n := repeat (TNum 0%Z) n;
  mempty := 0%Z;
  Sys := TSys TT;
  Meas := Z;
  s_csize := @t_m TT;
  s_Rc := @t_Rc TT;
  s_setRc sy R := Ok (mkTSys (t_m sy) R (t_pred sy));
  s_check sy := match t_pred sy with Some _ => true | None => false end;
  s_isStat sy x d := match t_pred sy with Some p => p x d | None => Ok false end;
  s_proc sy _ _ := Ok sy;
  s_make _ x P := Ok (x ++ [TStat], P);
  m_setCov _ Q := Ok Q;
  m_check _ := false;
  m_isStat _ _ _ := Ok false;
  m_proc m _ _ := Ok m;
  m_make _ x P := Ok (x, P);
  my_predict sy x P u dt := Ok (sy, x ++ [TPred (nums u) (t_Rc sy) dt], P);
  my_correct sy m x P z dt := Ok (sy, m, x ++ [TCorr (nums z) m dt], P)
|}.

(** Insertion sort by timestamp (stable): one admissible std::sort. *)
Section Sort.
Context {TT : TimeOps} {E : Env TT}.
Fixpoint ins_ts (i : FInput E) (l : list (FInput E)) : list (FInput E) :=
  match l with
  | [] => [i]
  | j :: l' => if tlt (i_ts i) (i_ts j) then i :: l else j :: ins_ts i l'
  end.
Definition isort_ts (l : list (FInput E)) : list (FInput E) := fold_left (fun a i => ins_ts i a) l [].
End Sort.

(** libstdc++-like library and a library that enforces the iterator rules of the standard *)
Definition gnu_lib {TT} (E : Env TT) : Lib E := mkLib false isort_ts.
Definition strict_lib {TT} (E : Env TT) : Lib E := mkLib true isort_ts.

(** Shorthands for witnesses over exact integer time *)
Definition ZE : Env ZTime := TraceEnv ZTime.
Definition zd (l : list Z) : V ZE := map TNum l.
Definition zsys : Sys ZE := mkTSys 1 7 None.
Definition zt (z : Z) : ZTime := ZFin z.
Definition znew (p : Params ZTime) : St ZE :=
  mkSt p (core (new_filter (E := ZE) zsys [0%Z] [] 0%Z (zt 0))) [] [] [].
