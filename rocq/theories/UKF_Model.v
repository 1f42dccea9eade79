(** UKF and UKFVS (src/filters/ukf.cpp, ukf_vs.cpp).  Exact arithmetic over a real closed field (a
    square root is needed for the Cholesky factor); see KF_Model.v for the conventions. *)
From mathcomp Require Import all_ssreflect all_algebra.
From Verif Require Import Outcome KF_Model.
Set Implicit Arguments.
Unset Strict Implicit.
Unset Printing Implicit Defensive.
Import GRing.Theory Num.Theory Order.TTheory.
Local Open Scope ring_scope.

(** ** Eigen's LLT (Eigen/src/Cholesky/LLT.h, llt_inplace::unblocked: used for sizes below 32; the
    blocked version computes the same factor of a positive definite matrix).  Not code of this
    repository, but its result decides what the UKF does, so the algorithm is written out.  Only
    the lower triangle is used.  Column k is finished in step k; when a pivot is not positive the
    loop stops, leaving the remaining columns as they were. *)
Section LLT.
Variables (R : rcfType) (n : nat).
Definition llt_pivot (A : 'M[R]_n) (k : 'I_n) : R := A k k - \sum_(j < n | (j < k)%N) A k j ^+ 2.
Definition llt_column (A : 'M[R]_n) (k : 'I_n) (d : R) : 'M[R]_n :=
  \matrix_(i, j) if j == k then
                   if i == k then d
                   else if (k < i)%N then (A i k - \sum_(l < n | (l < k)%N) A i l * A k l) / d
                   else A i j
                 else A i j.
Fixpoint llt_loop (A : 'M[R]_n) (ks : seq 'I_n) : 'M[R]_n :=
  if ks is k :: ks' then
    let x := llt_pivot A k in
    if x <= 0 then A else llt_loop (llt_column A k (Num.sqrt x)) ks'
  else A.
(** .llt().matrixL() *)
Definition llt_L (A : 'M[R]_n) : 'M[R]_n :=
  let M := llt_loop A (enum 'I_n) in \matrix_(i, j) if (j <= i)%N then M i j else 0.
End LLT.

(** ** Columns of a matrix allocated without initialisation: [None] is a column that has not been
    written *)
Section Columns.
Variable C : Type.
Definition wr (c : seq (option C)) (i : nat) (y : C) : outcome (seq (option C)) :=
  if (i < size c)%N then Ok (set_nth None c i (Some y)) else Ub ub_oob.
Fixpoint rd (c : seq (option C)) : outcome (seq C) :=
  match c with
  | [::] => Ok [::]
  | Some y :: c' => let* ys := rd c' in Ok (y :: ys)
  | None :: _ => Ub ub_uninit
  end.
(** the loop over the sigma points (ukf.cpp:60-73, 116-127, ukf_vs.cpp:72-84, 156-168): [hi]/[lo]
    compute column i+1 and column i+1+N, calling the model object *)
Definition sigma_loop (Obj : Type) (N : nat) (hi lo : Obj -> 'I_N -> outcome (Obj * C)) (st : Obj * seq (option C))
  : outcome (Obj * seq (option C)) :=
  ofold (fun st i =>
    let* (o1, yh) := hi st.1 i in
    let* c1 := wr st.2 (i + 1) yh in
    let* (o2, yl) := lo o1 i in
    let* c2 := wr c1 (i + 1 + N) yl in
    Ok (o2, c2)) (enum 'I_N) st.
End Columns.

Section Model.
Variables (R : rcfType) (T : Type).

(** ukf.h:53-61: num_sigma_pts_, lambda_, w_mean_, w_cov_ *)
Record UKFPar : Type := { up_num : nat; up_lambda : R; up_wm : seq R; up_wc : seq R }.

(** ukf.cpp:18-44 with n = stateSize(), ukf_vs.cpp:19-45 with n = activeStateSize().  Division by
    n + lambda = 0 gives non-numbers. *)
Definition set_sigma (n : nat) (alpha kappa beta : R) : outcome UKFPar :=
  let num := (2 * n + 1)%N in
  let lambda := alpha ^+ 2 * (n%:R + kappa) - n%:R in
  if n%:R + lambda == 0 then Ub ub_singular else
  let init_w := (1 / 2%:R) / (n%:R + lambda) in
  let wm0 := lambda / (n%:R + lambda) in
  let wc0 := wm0 + 1 - alpha ^+ 2 + beta in
  Ok {| up_num := num; up_lambda := lambda;
        up_wm := set_nth 0 (nseq num init_w) 0 wm0;
        up_wc := set_nth 0 (nseq num init_w) 0 wc0 |}.
(** ukf.cpp:46-48, ukf_vs.cpp:47-49: 0.001, 0, 2 *)
Definition default_sigma (n : nat) : outcome UKFPar := set_sigma n (1 / 1000%:R) 0 2%:R.

(** covariance += sum of w_cov(i) * a_i * b_i' *)
Definition wcov k k' (acc : 'M[R]_(k, k')) (wc : seq R) (ds : seq ('cV[R]_k * 'cV[R]_k')) : 'M[R]_(k, k') :=
  foldl (fun acc (wd : R * ('cV[R]_k * 'cV[R]_k')) => acc + (wd.1 *: wd.2.1) *m wd.2.2^T) acc (zip wc ds).

Section Fixed.
Variables n m p k : nat.

(** update the model at y and take its prediction *)
Definition sys_eval (S : NonlinSys R T n m p) (u : 'cV[R]_m) (dt : T) (o : sm S) (y : 'cV[R]_n) : outcome (sm S * 'cV[R]_n) :=
  let* o1 := sm_upd o y u dt in Ok (o1, ns_g o1).
(** ... a measurement model; the column also holds the sigma point *)
Definition meas_eval (M : NonlinMeas R T n k) (dt : T) (q : mm M) (y : 'cV[R]_n) : outcome (mm M * ('cV[R]_n * 'cV[R]_k)) :=
  let* q1 := mm_upd q y dt in Ok (q1, (y, nm_h q1)).

(** ukf.cpp:50-86, UKF::myPredict *)
Definition ukf_predict (S : NonlinSys R T n m p) (par : UKFPar) (o : sm S) (x : 'cV[R]_n) (P : 'M[R]_n) (u : 'cV[R]_m) (dt : T)
  : outcome (sm S * 'cV[R]_n * 'M[R]_n) :=
  let off := llt_L ((n%:R + up_lambda par) *: P) in
  let* (o1, y0) := sys_eval u dt o x in
  let* c0 := wr (nseq (up_num par) None) 0 y0 in
  let* (o2, c) := sigma_loop (fun o i => sys_eval u dt o (sm_add o x (col i off)))
                             (fun o i => sys_eval u dt o (sm_sub o x (col i off))) (o1, c0) in
  let* pts := rd c in
  let x' := sm_wsum o2 (up_wm par) pts in
  let dx y := sm_sub o2 y x' in
  Ok (o2, x', wcov (sm_P o2 *m sm_Rp o2 *m (sm_P o2)^T + sm_V o2 *m sm_Rc o2 *m (sm_V o2)^T)
                   (up_wc par) [seq (dx y, dx y) | y <- pts]).

(** ukf.cpp:104-154, UKF::myCorrect *)
Definition ukf_correct (S : NonlinSys R T n m p) (M : NonlinMeas R T n k) (par : UKFPar) (o : sm S) (q : mm M)
    (x : 'cV[R]_n) (P : 'M[R]_n) (z : 'cV[R]_k) (dt : T) : outcome (mm M * 'cV[R]_n * 'M[R]_n) :=
  let off := llt_L ((n%:R + up_lambda par) *: P) in
  let* (q1, y0) := meas_eval dt q x in
  let* c0 := wr (nseq (up_num par) None) 0 y0 in
  let* (q2, c) := sigma_loop (fun q i => meas_eval dt q (sm_add o x (col i off)))
                             (fun q i => meas_eval dt q (sm_sub o x (col i off))) (q1, c0) in
  let* pts := rd c in
  let z_pred := mm_wsum q2 (up_wm par) [seq y.2 | y <- pts] in
  let dz (y : 'cV[R]_n * 'cV[R]_k) := mm_sub q2 y.2 z_pred in
  let dx (y : 'cV[R]_n * 'cV[R]_k) := sm_sub o y.1 x in
  let S := wcov (mm_cov q2) (up_wc par) [seq (dz y, dz y) | y <- pts] in
  let cross := wcov 0 (up_wc par) [seq (dx y, dz y) | y <- pts] in
  let* inv := inverse S in
  let K := cross *m inv in
  Ok (q2, sm_add o x (K *m mm_sub q2 z z_pred), P - K *m S *m K^T).
End Fixed.

(** ** UKFVS.  The lists of active indices are those of the objects before the call: update() is
    assumed not to change them.  [offset] (ukf_vs.cpp:71-75) starts at zero and its active entries
    are overwritten in every iteration, so it is [zput1] of the column. *)
Section VS.
Variables n m p k : nat.

(** ukf_vs.cpp:51-110, UKFVS::myPredict, with f = activeStates(), fc = activeControls() *)
Definition ukfvs_predict_with s c (f : 'I_s -> 'I_n) (fc : 'I_c -> 'I_m) (S : NonlinSys R T n m p) (par : UKFPar) (o : sm S)
    (x : 'cV[R]_n) (P : 'M[R]_n) (u : 'cV[R]_m) (dt : T) : outcome (sm S * 'cV[R]_n * 'M[R]_n) :=
  let off := llt_L ((s%:R + up_lambda par) *: get2 f f P) in
  let* (o1, y0) := sys_eval u dt o x in
  let* c0 := wr (nseq (up_num par) None) 0 y0 in
  let* (o2, c) := sigma_loop (fun o i => sys_eval u dt o (sm_add o x (zput1 f (col i off))))
                             (fun o i => sys_eval u dt o (sm_sub o x (zput1 f (col i off)))) (o1, c0) in
  let* pts := rd c in
  let x' := sm_wsum o2 (up_wm par) pts in
  let Rc_s := get2 fc fc (sm_Rc o2) in
  let P_s := get2 f id (sm_P o2) in
  let V_s := get2 f fc (sm_V o2) in
  let dx y := get1 f (sm_sub o2 y x') in
  let cov' := wcov (P_s *m sm_Rp o2 *m P_s^T + V_s *m Rc_s *m V_s^T) (up_wc par) [seq (dx y, dx y) | y <- pts] in
  Ok (o2, x', put2 f f cov' P).
Definition ukfvs_predict (S : NonlinSys R T n m p) (par : UKFPar) (o : sm S) (x : 'cV[R]_n) (P : 'M[R]_n) (u : 'cV[R]_m) (dt : T) :=
  ukfvs_predict_with (@aix _ (sm_act o)) (@aix _ (sm_actC o)) par o x P u dt.

(** ukf_vs.cpp:132-206, UKFVS::myCorrect, with f = activeStates(), fm = activeMeasurements() *)
Definition ukfvs_correct_with s c (f : 'I_s -> 'I_n) (fm : 'I_c -> 'I_k) (S : NonlinSys R T n m p) (M : NonlinMeas R T n k)
    (par : UKFPar) (o : sm S) (q : mm M) (x : 'cV[R]_n) (P : 'M[R]_n) (z : 'cV[R]_k) (dt : T)
  : outcome (mm M * 'cV[R]_n * 'M[R]_n) :=
  let cov_s := get2 f f P in
  let off := llt_L ((s%:R + up_lambda par) *: cov_s) in
  let* (q1, y0) := meas_eval dt q x in
  let* c0 := wr (nseq (up_num par) None) 0 y0 in
  let* (q2, c) := sigma_loop (fun q i => meas_eval dt q (sm_add o x (zput1 f (col i off))))
                             (fun q i => meas_eval dt q (sm_sub o x (zput1 f (col i off)))) (q1, c0) in
  let* pts := rd c in
  let z_pred := mm_wsum q2 (up_wm par) [seq y.2 | y <- pts] in
  let dz (y : 'cV[R]_n * 'cV[R]_k) := get1 fm (mm_sub q2 y.2 z_pred) in
  let dx (y : 'cV[R]_n * 'cV[R]_k) := get1 f (sm_sub o y.1 x) in
  let S := wcov (get2 fm fm (mm_cov q2)) (up_wc par) [seq (dz y, dz y) | y <- pts] in
  let cross := wcov 0 (up_wc par) [seq (dx y, dz y) | y <- pts] in
  let* inv := inverse S in
  let K := cross *m inv in
  let dx_full := zput1 f (K *m get1 fm (mm_sub q2 z z_pred)) in
  Ok (q2, sm_add o x dx_full, put2 f f (cov_s - K *m S *m K^T) P).
Definition ukfvs_correct (S : NonlinSys R T n m p) (M : NonlinMeas R T n k) (par : UKFPar) (o : sm S) (q : mm M)
    (x : 'cV[R]_n) (P : 'M[R]_n) (z : 'cV[R]_k) (dt : T) :=
  ukfvs_correct_with (@aix _ (sm_act o)) (@aix _ (mm_act q)) par o q x P z dt.
End VS.
End Model.
