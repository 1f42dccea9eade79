(** examples/six_d_rates_example.cpp: the whole program, from the two files of comma separated
    numbers it reads to the file it writes.  Time stamps are IEEE binary64 numbers as in the program;
    the estimate is in exact arithmetic (the constants of the program are the decimal numbers written
    there), as in SixD.v and KF_Model.v. *)
From Coq Require Import ZArith Reals List Bool Ascii String.
From Flocq Require Import IEEE754.BinarySingleNaN.
From Verif Require Import Outcome FB_Model ActiveSets Geo Transform SixD FloatTime Csv.
From mathcomp Require Import all_ssreflect all_algebra.
From Verif Require Import KF_Model FB_Alg KF_Filter RealField S6_Filter Props_S6Filter.
Set Implicit Arguments.
Unset Strict Implicit.
Unset Printing Implicit Defensive.
Import GRing.Theory Num.Theory Order.TTheory.
Local Open Scope ring_scope.

(** ** six_d_rates_example.cpp:21-28 *)
Inductive MeasTypes : Type := ODOM | IMU.
Record ExMeas : Type := mkEx { em_t : f64; em_z : list f64; em_type : MeasTypes }.

(** :83-91; every row has as many entries as there are fields (Csv.read_row), so that meas_vec(0) is
    its first entry and tail(4), tail(6) the others *)
Definition ex_measurement (ty : MeasTypes) (row : list f64) : ExMeas := mkEx (List.hd fzero row) (List.tl row) ty.
Definition odom_fields : list nat := [:: 2; 12; 13; 14; 17]%N.                 (* :73 *)
Definition imu_fields : list nat := [:: 2; 11; 12; 13; 8; 9; 10]%N.            (* :78 *)
Definition ex_measurements (odom_data imu_data : list (list f64)) : list ExMeas :=
  (List.map (ex_measurement ODOM) odom_data ++ List.map (ex_measurement IMU) imu_data)%list.

(** :99-102, meas.t -= t_start; meas.t /= 1e9 *)
Definition e9 : f64 := fl64 1000000000 0.
Definition fdiv64 : f64 -> f64 -> f64 := Bdiv mode_NE.
Definition ex_offset (t_start : f64) (m : ExMeas) : ExMeas := mkEx (fdiv64 (fsub64 (em_t m) t_start) e9) (em_z m) (em_type m).
(** :95-102; [srt] is std::sort, of which only its contract is used (Props_Example6D.v) *)
Definition ex_prepare (srt : list ExMeas -> list ExMeas) (l : list ExMeas) : outcome (list ExMeas) :=
  if swo_ok (TT := FTime) (List.map em_t l) then
    match srt l with
    | [::] => Ub ub_empty_deque                                                (* :98, front() *)
    | m :: _ => Ok (List.map (ex_offset (em_t m)) (srt l))
    end
  else Ub ub_sort.

(** ** The models, :104-188 *)
Definition secs : FTime -> R := fun t => B2R t.
Definition dec (m : Z) (k : nat) : R := Rdiv (IZR m) (IZR (Z.pow 10 (Z.of_nat k))).   (* m 10^-k *)
(** :41-45 *)
Definition slow (a : R) (limit : R) : bool := `|a : R_realFieldType| < limit.
Definition isStationarySystem (x : 'cV[R]_18) (z : DV R_realFieldType) : bool :=
  slow (of_vec x 0%N) (dec 5 2) && slow (of_vec x 8%N) (dec 5 2).
(** :47-51; the indices of common_measurements.h *)
Definition isStationaryOdom (x : 'cV[R]_18) (z : 'cV[R]_4) : bool :=
  (slow (of_vec x 0%N) (dec 5 2) && slow (of_vec z 0%N) (dec 5 2)) && (slow (of_vec x 8%N) (dec 5 2) && slow (of_vec z 3%N) (dec 5 2)).
(** :53-57 *)
Definition isStationaryImu (x : 'cV[R]_18) (z : 'cV[R]_6) : bool :=
  (slow (of_vec x 0%N) (dec 5 2) && slow (of_vec z 0%N) (dec 30 2)) && (slow (of_vec x 8%N) (dec 5 2) && slow (of_vec z 5%N) (dec 30 2)).
(** :59-63, makeStationary: Props_S6Filter.ex_make *)

(** a diagonal matrix *)
Definition diag_of n (l : seq R) : 'M[R]_n := \matrix_(i < n, j < n) if i == j then nth (0 : R) l i else 0.
(** :126-131 *)
Definition ex_Rp : 'M[R]_15 := diag_of 15
  [:: dec 1 1; dec 1 2; dec 1 5; dec 1 7; dec 1 7; dec 1 7; dec 1 6; dec 1 6; dec 1 1; dec 1 8; dec 1 8; dec 1 8; dec 1 12; dec 1 12; dec 1 12].
(** :105, 110-111, 132, 162-172.  (setActiveStates is called after the filter is made, which only
    stores a pointer to the model.) *)
Definition ex_active_states : list nat := [:: 0; 1; 2; 3; 4; 5; 6; 7; 8]%N.
Definition ex_sys : S6Obj :=
  mkS6Obj (s6_setActiveStates (s6_new true true) ex_active_states) ex_Rp 0 (Some isStationarySystem) (Some ex_make).
(** :106, 113-114, 121-123, 174-179 *)
Definition ex_odom_tf : Iso := mkIso mid (mkV (- dec 26 2) 0 0).
Definition ex_odom : M6Obj 4 :=
  mkM6Obj (setTf odom_post (odom_new true) ex_odom_tf) (fun _ => 0%R) 0 (setActive (newASet 4) [:: 0; 1; 2; 3]%N) (Some isStationaryOdom) (Some ex_make).
(** :107, 116-117, 181-188 *)
Definition ex_imu : M6Obj 6 :=
  mkM6Obj (imu_new true) (fun _ => 0%R) 0 (setActive (newASet 6) [:: 0; 1; 2; 3; 4; 5]%N) (Some isStationaryImu) (Some ex_make).
(** :135-139 *)
Definition ex_cov_odom : 'M[R]_4 := diag_of 4 [:: dec 1 5; dec 1 4; dec 1 6; dec 5 1].
Definition ex_cov_imu : 'M[R]_6 := diag_of 6 [:: dec 1 3; dec 1 3; dec 1 2; dec 1 1; dec 1 1; dec 1 4].
(** :143-144 *)
Definition ex_x : 'cV[R]_18 := to_vec 18 (put (fun _ => 0%R) 11 (dec 98062 4)).
(** :146-153; AY's entry is 1e43 in the program *)
Definition ex_cov : 'M[R]_18 := diag_of 18
  [:: dec 1 5; dec 1 5; dec 1 5; dec 1 4; dec (Z.pow 10 43) 0; dec 1 4; dec 1 5; dec 1 5; dec 1 5;
      dec 1 9; dec 1 9; dec 1 9; dec 1 6; dec 1 6; dec 1 6; dec 1 3; dec 1 3; dec 1 3].

(** ** The filter and the loop, :142, 160, 190-205 *)
Definition ex_alg : FilterAlg R_realFieldType FTime 18 0 := ekfvs_alg (six_d_ops secs) (six_d_mops FTime).
Definition ex_env : Env FTime := alg_env ex_alg.
Definition ex_filter (t_i : f64) : St ex_env :=
  new_filter (E := ex_env) (ex_sys : fa_sys ex_alg) [:: dmeas (F := ex_alg) (k := 4) ex_odom; dmeas (F := ex_alg) (k := 6) ex_imu]
    (dv (R := R_realFieldType) ex_x) (dm (R := R_realFieldType) ex_cov) t_i.
(** the numbers of a row as an Eigen vector *)
Definition ex_z (l : list f64) : DV R_realFieldType := dv (R := R_realFieldType) (\col_(i < size l) B2R (nth fzero l i)).
(** :197-201 *)
Definition ex_correct (L : Lib ex_env) (s : St ex_env) (m : ExMeas) : outcome (St ex_env) :=
  match em_type m with
  | ODOM => correct L s (ex_z (em_z m) : V ex_env) (dm (R := R_realFieldType) ex_cov_odom : Mx ex_env) (em_t m : FTime) (Some 0%N)
  | IMU => correct L s (ex_z (em_z m) : V ex_env) (dm (R := R_realFieldType) ex_cov_imu : Mx ex_env) (em_t m : FTime) (Some 1%N)
  end.
(** :29-33, 203: what the program keeps of the filter *)
Record Sample : Type := mkSample { sp_t : f64; sp_x : DV R_realFieldType; sp_cov : DM R_realFieldType }.
Definition ex_sample (s : St ex_env) : Sample := mkSample (getStateTime s) (getState s) (getCovariance s).
(** :195-205 *)
Fixpoint ex_loop (L : Lib ex_env) (s : St ex_env) (ms : list ExMeas) : outcome (list Sample) :=
  match ms with
  | [::] => Ok [::]
  | m :: ms' =>
    let* s1 := ex_correct L s m in
    let* rest := ex_loop L s1 ms' in
    Ok (ex_sample s1 :: rest)
  end.

(** ** The output, :207-236 *)
Section Output.
(** the double nearest to a number of the estimate; any function, since rounding is not modelled *)
Variable dbl : R -> f64.
(** :209-226; a sample whose size is not 18 would be an Eigen assertion *)
Definition ex_row (s : Sample) : outcome (list f64) :=
  let* x := vec_of (R := R_realFieldType) 18 (sp_x s) in
  let* P := mat_of (R := R_realFieldType) 18 (sp_cov s) in
  Ok (sp_t s :: ([seq dbl (x i 0) | i <- enum 'I_18] ++ flatten [seq [seq dbl (P i j) | j <- enum 'I_18] | i <- enum 'I_18])).
Fixpoint ex_rows (l : list Sample) : outcome (list (list f64)) :=
  match l with
  | [::] => Ok [::]
  | s :: l' => let* r := ex_row s in let* rs := ex_rows l' in Ok (r :: rs)
  end.
End Output.
(** :228-234; std::to_string(int) *)
Definition ex_state_names : list str := List.map lit
  [:: "VX"; "VY"; "VZ"; "AX"; "AY"; "AZ"; "VPHI"; "VTHETA"; "VPSI"; "GX"; "GY"; "GZ"; "B_AX"; "B_AY"; "B_AZ"; "B_WX"; "B_WY"; "B_WZ"]%string.
Definition ex_cov_name (i j : nat) : str := (lit "cov_" ++ int_chars (Z.of_nat i) ++ int_chars (Z.of_nat j))%list.
Definition ex_header : str :=
  (lit "t,VX,VY,VZ,AX,AY,AZ,VPHI,VTHETA,VPSI,GX,GY,GZ,B_AX,B_AY,B_AZ,B_WX,B_WY,B_WZ" ++
   List.concat (List.map (fun i => List.concat (List.map (fun j => comma :: ex_cov_name i j) (List.seq 0 18))) (List.seq 0 18)))%list.

(** ** main, :65-239 *)
Inductive main_result : Type :=
| Exit1                                       (* return 1 *)
| Uncaught                                    (* an exception of std::stod leaves main *)
| Undefined (u : ub)
| OutsideModel                                (* a reading or a time in seconds is infinite or NaN *)
| Exit0 (samples : list Sample) (file : str). (* return 0; what was kept, and the file written *)

Definition ex_finite (m : ExMeas) : bool := is_finite (em_t m) && all (fun z => is_finite z) (em_z m).
(** [argc], and the content of the files argv[1] and argv[2] ([None]: cannot be opened) *)
Definition ex_main (srt : list ExMeas -> list ExMeas) (L : Lib ex_env) (dbl : R -> f64)
    (argc : nat) (odom_file imu_file : option str) : main_result :=
  if (argc < 4)%N then Exit1 else
  match loadCsvFields odom_file true odom_fields [::] with
  | Refused _ => Exit1
  | Threw _ => Uncaught
  | Loaded odom_data =>
    match loadCsvFields imu_file true imu_fields [::] with
    | Refused _ => Exit1
    | Threw _ => Uncaught
    | Loaded imu_data =>
      match ex_prepare srt (ex_measurements odom_data imu_data) with
      | Ub u => Undefined u
      | Ok ms =>
        if all ex_finite ms then
          let t_i := match ms with m :: _ => em_t m | [::] => fzero end in                    (* :142 *)
          match (let* samples := ex_loop L (ex_filter t_i) ms in let* rows := ex_rows dbl samples in Ok (samples, rows)) with
          | Ub u => Undefined u
          | Ok (samples, rows) => Exit0 samples (writeToFile ex_header rows)
          end
        else OutsideModel
      end
    end
  end.
