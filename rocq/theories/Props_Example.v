(** C100 - C103: the program examples/six_d_rates_example.cpp. *)
From Coq Require Import ZArith Reals Lra Lia List Bool Ascii String Sorted Permutation.
From Flocq Require Import Core.Core IEEE754.BinarySingleNaN.
From Verif Require Import Outcome FB_Model FB_Trace FB_Spec FloatTime Csv Props_Csv.
From mathcomp Require Import all_ssreflect all_algebra zify.
From Verif Require Import LinAlg FB_Alg RealField Example6D Props_ExampleTime Props_Example6D.
Set Implicit Arguments.
Unset Strict Implicit.
Unset Printing Implicit Defensive.
Import GRing.Theory Num.Theory Order.TTheory.
Import List.ListNotations.
Local Open Scope list_scope.
Local Open Scope nat_scope.
Local Notation val := FloatTime.val.
Delimit Scope R_scope with coqR.

(** ** Specification *)

(** std::sort: a permutation of its argument without inversions, when the comparison is a strict weak
    order on the stamps *)
Definition not_before (a b : ExMeas) : Prop := tlt (t := FTime) (em_t b) (em_t a) = false.
Definition sort_ok (srt : list ExMeas -> list ExMeas) : Prop := forall l,
  swo_ok (TT := FTime) (List.map em_t l) = true -> Permutation (srt l) l /\ StronglySorted not_before (srt l).
(** the measurement as a call of correct(z, Q, t, m); its time is in seconds after the stamp [s0] *)
Definition ex_op (s0 : f64) (m : ExMeas) : Op (E := ex_env) :=
  match em_type m with
  | ODOM => OpCorrect (E := ex_env) (ex_z (em_z m)) (dm (R := R_realFieldType) ex_cov_odom) (seconds s0 (em_t m)) (Some 0)
  | IMU => OpCorrect (E := ex_env) (ex_z (em_z m)) (dm (R := R_realFieldType) ex_cov_imu) (seconds s0 (em_t m)) (Some 1)
  end.
Definition first_stamp (ms : list ExMeas) : f64 := match ms with m :: _ => em_t m | [] => fzero end.

(** ** The loop *)
Lemma ex_correct_op L s s0 m : ex_correct L s (ex_offset s0 m) = step L s (ex_op s0 m).
Proof. by rewrite /ex_correct /ex_op /=; case: (em_type m). Qed.
Lemma loop_run L s0 : forall ms s samples, ex_loop L s (List.map (ex_offset s0) ms) = Ok samples ->
  List.length samples = List.length ms /\
  forall k, k < List.length ms -> exists s', run L (List.map (ex_op s0) (List.firstn k.+1 ms)) s = Ok s' /\ nth_error samples k = Some (ex_sample s').
Proof.
elim=> [|m ms IH] s samples /=; first by move=> [<-].
rewrite ex_correct_op; case e: (step L s (ex_op s0 m)) => [s1|u] //=.
case e1: (ex_loop L s1 _) => [rest|u] //= [<-].
have [hl hr] := IH _ _ e1; split; first by rewrite /= hl.
case=> [|k] hk.
  by exists s1; rewrite /run /= e.
have [s' [h1 h2]] := hr k hk; exists s'; split; last by [].
by move: h1; rewrite /run /= e.
Qed.
Lemma all_Forall (T : Type) (a : pred T) l : all a l <-> List.Forall a l.
Proof.
elim: l => [|x l IH] /=; first by split.
by split=> [/andP[h1 /IH h2]|h]; [constructor|inversion h; subst; apply/andP; split => //; apply/IH].
Qed.
Lemma prepare_ok srt l ms' : sort_ok srt -> ex_prepare srt l = Ok ms' -> exists ms, ms = srt l /\
  ms <> [] /\ Permutation ms l /\ StronglySorted not_before ms /\ ms' = List.map (ex_offset (first_stamp ms)) ms.
Proof.
move=> hs; rewrite /ex_prepare; case e: (swo_ok _) => //; have [hp hso] := hs _ e.
by case em: (srt l) hp hso => [|m ms] hp hso // [<-]; exists (m :: ms).
Qed.
Lemma main_inv srt L dbl argc fo fi samples file : sort_ok srt -> ex_main srt L dbl argc fo fi = Exit0 samples file ->
  exists od im rows, let ms := srt (ex_measurements od im) in let s0 := first_stamp ms in
    loadCsvFields fo true odom_fields [] = Loaded od /\ loadCsvFields fi true imu_fields [] = Loaded im
    /\ ms <> [] /\ Permutation ms (ex_measurements od im) /\ StronglySorted not_before ms
    /\ List.Forall (fun m => ex_finite (ex_offset s0 m)) ms
    /\ ex_loop L (ex_filter (seconds s0 s0)) (List.map (ex_offset s0) ms) = Ok samples
    /\ ex_rows dbl samples = Ok rows /\ file = writeToFile ex_header rows.
Proof.
move=> hs; rewrite /ex_main; case: leqP => // _.
case eo: (loadCsvFields fo true odom_fields []) => [od|od|od] //.
case ei: (loadCsvFields fi true imu_fields []) => [im|im|im] //.
case ep: (ex_prepare srt _) => [ms'|u] //; have [ms [ems [hn [hp [hso e']]]]] := prepare_ok hs ep.
case hfin: (all _ _) => //; move/all_Forall: hfin => hfin.
have -> : (match ms' with [] => fzero | m :: _ => em_t m end) = seconds (first_stamp ms) (first_stamp ms) by rewrite e'; case: (ms) hn.
case el: (ex_loop _ _ _) => [ss|u] //=; case er: (ex_rows _ _) => [rows|u] //= [<- <-].
exists od, im, rows; rewrite -ems; do ! split => //; last by rewrite -e'.
by move: hfin; rewrite e' => /List.Forall_map.
Qed.

(** ** C100: one row per measurement, in time order *)
Lemma load_size idx : forall lines data rows, load_lines lines idx data = Loaded rows ->
  List.Forall (fun r => List.length r = List.length idx) data -> List.Forall (fun r => List.length r = List.length idx) rows.
Proof.
have rr fields : forall idx r, read_row fields idx = Row r -> List.length r = List.length idx.
  elim=> [|i l IH] r /=; first by move=> [<-].
  by case: (nth_error fields i) => [f|] //; case: (stod f) => [x||] //; case e: (read_row fields l) => [r'||] // [<-] /=; rewrite (IH r').
elim=> [|line rest IH] data rows /=; first by move=> [<-].
case: (getlines _ _ _) => [|f fs] //; case e: (read_row _ _) => [r||] // h1 h2; apply: (IH _ _ h1).
by apply/List.Forall_app; split=> //; constructor => //; apply: rr e.
Qed.
Lemma load_rows file idx rows : loadCsvFields file true idx [] = Loaded rows -> List.Forall (fun r => List.length r = List.length idx) rows.
Proof. by rewrite /loadCsvFields; case: file => // s h; apply: (load_size h). Qed.
(** the columns of the input files the program uses (counted from 0): the time stamp, then the
    components of the reading - linear velocity x, y, z and angular velocity z of the odometry;
    linear acceleration x, y, z and angular velocity x, y, z of the IMU *)
Definition time_and_odometry : list nat := [2; 12; 13; 14; 17].
Definition time_and_imu : list nat := [2; 11; 12; 13; 8; 9; 10].
(** the measurement [m] of the kind [ty] is the row [row] of numbers read *)
Definition reading (ty : MeasTypes) (row : list f64) (m : ExMeas) : Prop := row = em_t m :: em_z m /\ em_type m = ty.
Lemma readings ty n rows : List.Forall (fun r : list f64 => List.length r = n.+1) rows ->
  List.Forall2 (reading ty) rows (List.map (ex_measurement ty) rows).
Proof. by elim=> [|r l h _ IH] /=; constructor => //; case: r h. Qed.
Lemma Forall2_len (A B : Type) (P : A -> B -> Prop) l l' : List.Forall2 P l l' -> List.length l = List.length l'.
Proof. by elim=> // x y xs ys _ _ /= ->. Qed.
Theorem C100_rows srt L dbl argc fo fi samples file : sort_ok srt -> ex_main srt L dbl argc fo fi = Exit0 samples file ->
  exists od im mo mi ms, let s0 := first_stamp ms in
    (loadCsvFields fo true time_and_odometry [] = Loaded od /\ List.Forall2 (reading ODOM) od mo)
    /\ (loadCsvFields fi true time_and_imu [] = Loaded im /\ List.Forall2 (reading IMU) im mi)
    /\ Permutation ms (mo ++ mi) /\ StronglySorted not_before ms
    /\ List.length samples = List.length ms
    /\ forall k, k < List.length ms -> exists s, run L (List.map (ex_op s0) (List.firstn k.+1 ms)) (ex_filter (seconds s0 s0)) = Ok s
         /\ nth_error samples k = Some (mkSample (getStateTime s) (getState s) (getCovariance s)).
Proof.
move=> hs /(main_inv hs) [od [im [rows [h1 [h2 [h3 [h4 [h5 [h6 [h7 [h8 h9]]]]]]]]]]].
exists od, im, (List.map (ex_measurement ODOM) od), (List.map (ex_measurement IMU) im), (srt (ex_measurements od im)); have [e1 e2] := loop_run h7.
split; first by split => //; apply: (@readings _ 4); exact: load_rows h1.
split; first by split => //; apply: (@readings _ 6); exact: load_rows h2.
by do ! split.
Qed.

(** ** The times of the rows *)
Lemma loop_times L : forall ms s samples, par s = default_params -> ex_loop L s ms = Ok samples ->
  List.map sp_t samples = times_after (getStateTime s) (List.map em_t ms).
Proof.
elim=> [|m ms IH] s samples hp /=; first by move=> [<-].
case e: (ex_correct L s m) => [s1|u] //=; case e1: (ex_loop L s1 ms) => [rest|u] //= [<-].
have [hp1 ht1] : par s1 = par s /\ getStateTime s1 = next_time (getStateTime s) (em_t m).
  by move: e; rewrite /ex_correct; case: (em_type m) => /correct_time; rewrite hp; apply.
by rewrite /= (IH s1 rest) ?hp1 // ht1.
Qed.
Lemma main_times srt L dbl argc fo fi samples file : sort_ok srt -> ex_main srt L dbl argc fo fi = Exit0 samples file ->
  exists od im s0 m ms, loadCsvFields fo true odom_fields [] = Loaded od /\ loadCsvFields fi true imu_fields [] = Loaded im
    /\ srt (ex_measurements od im) = m :: ms /\ s0 = em_t m /\ Permutation (m :: ms) (ex_measurements od im) /\ StronglySorted not_before (m :: ms)
    /\ List.Forall (fun s => finite (seconds s0 s) = true) (List.map em_t (m :: ms)) /\ List.Forall (fun s => tlt (t := FTime) s s0 = false) (List.map em_t ms)
    /\ List.map sp_t samples = times_after (seconds s0 s0) (List.map (seconds s0) (List.map em_t (m :: ms))).
Proof.
move=> hs /(main_inv hs) [od [im [rows [h1 [h2 [h3 [h4 [h5 [h6 [h7 _]]]]]]]]]].
exists od, im, (first_stamp (srt (ex_measurements od im))).
move: h3 h4 h5 h6 h7; case: (srt _) => [|m ms] // _ h4 h5 h6 h7; exists m, ms; do ! split => //.
- by apply/List.Forall_map; apply: List.Forall_impl h6 => a /andP[].
- by apply/List.Forall_map; inversion h5.
by have := loop_times _ h7; rewrite !List.map_map => ->.
Qed.
(** the rows are in the order of their times *)
Theorem C100_times srt L dbl argc fo fi samples file : sort_ok srt -> ex_main srt L dbl argc fo fi = Exit0 samples file ->
  StronglySorted (fun a b => tle (t := FTime) (sp_t a) (sp_t b) = true) samples.
Proof.
move=> hs /(main_times hs) [od [im [s0 [m [ms [_ [_ [_ [e0 [_ [_ [hf [hl ht]]]]]]]]]]]]].
have e1 : s0 :: List.map em_t ms = List.map em_t (m :: ms) by rewrite e0.
rewrite -e1 in hf ht; have [_] := @seconds_sorted s0 (List.map em_t ms) hf hl.
rewrite -ht; elim: samples {ht} => [|a l IH] h; first by constructor.
inversion h as [|? ? h1 h2]; subst; constructor; first exact: IH.
by move/List.Forall_map: h2.
Qed.

(** ** C100: the file *)
(** the number n < 100 in decimal *)
Definition decimal (n : nat) : str :=
  let digit k := List.nth k (lit "0123456789") "0"%char in
  if n < 10 then [digit n] else [digit (n %/ 10); digit (n %% 10)].
Definition column_names : list str :=
  lit "t" :: List.map lit ["VX"; "VY"; "VZ"; "AX"; "AY"; "AZ"; "VPHI"; "VTHETA"; "VPSI"; "GX"; "GY"; "GZ"; "B_AX"; "B_AY"; "B_AZ"; "B_WX"; "B_WY"; "B_WZ"]%string
  ++ [seq List.app (lit "cov_") (List.app (decimal i) (decimal j)) | i <- iota 0 18, j <- iota 0 18].
Definition column_values (dbl : R -> f64) (t : f64) (x : 'cV[R]_18) (P : 'M[R]_18) : list f64 :=
  t :: [seq dbl (x i 0%R) | i <- enum 'I_18] ++ [seq dbl (P i j) | i <- enum 'I_18, j <- enum 'I_18].
Lemma rows_inv dbl : forall samples rows, ex_rows dbl samples = Ok rows ->
  List.Forall2 (fun s r => exists x P, sp_x s = dv (R := R_realFieldType) x /\ sp_cov s = dm (R := R_realFieldType) P /\ r = column_values dbl (sp_t s) x P) samples rows.
Proof.
elim=> [|s l IH] rows /=; first by move=> [<-]; constructor.
rewrite /ex_row; case ex: (vec_of _ _) => [x|u] //=; case eP: (mat_of _ _) => [P|u] //=.
case er: (ex_rows dbl l) => [rs|u] //= [<-]; constructor; last exact: IH.
by exists x, P; split; [exact: vec_of_ok|split; [exact: mat_of_ok|]].
Qed.
Lemma header_columns : separated comma ex_header column_names.
Proof.
have <- : getlines (List.length ex_header) comma ex_header = column_names by vm_compute.
exact: sep_exists.
Qed.
Lemma header_line : ~ List.In newline ex_header.
Proof.
have : List.forallb (fun c => negb (Ascii.eqb c newline)) ex_header = true by vm_compute.
by move=> /List.forallb_forall h /h; rewrite Ascii.eqb_refl.
Qed.
Theorem C100_file srt L dbl argc fo fi samples file : sort_ok srt -> ex_main srt L dbl argc fo fi = Exit0 samples file ->
  exists header lines, separated newline file (header :: lines) /\ separated comma header column_names
    /\ List.Forall2 (fun s line => exists x P, sp_x s = dv (R := R_realFieldType) x /\ sp_cov s = dm (R := R_realFieldType) P
         /\ separated comma line (List.map to_string (column_values dbl (sp_t s) x P))) samples lines.
Proof.
move=> hs /(main_inv hs) [od [im [rows [_ [_ [_ [_ [_ [_ [_ [hr ->]]]]]]]]]]].
exists ex_header, (List.map row_chars rows); split.
  rewrite /writeToFile; case e: ex_header => [|c h]; first by move: e; rewrite /ex_header.
  rewrite -e -List.app_assoc; apply: sep_cons; first exact: header_line.
  split; [apply/List.Forall_forall => l /List.in_map_iff [r [<- _]]; exact: row_chars_line|left; by rewrite List.map_map].
split; first exact: header_columns.
elim: (rows_inv hr) => [|s r ss rs [x [P [e1 [e2 ->]]]] _ IH]; constructor => //.
by exists x, P; split => //; split => //; apply: row_chars_sep.
Qed.
(** name and value of column c *)
Lemma columns_size dbl t x P : size column_names = 343 /\ size (column_values dbl t x P) = 343.
Proof.
split; first by vm_compute.
by rewrite /column_values /= size_cat size_map size_allpairs !size_enum_ord.
Qed.

(** ** C101: the names of the covariance columns *)
Definition same_name_ok (c d : nat) : bool :=
  (c == d) || ((47 <= c) && (c < 55) && (d == c + 170)) || ((47 <= d) && (d < 55) && (c == d + 170)).
Fixpoint str_eqb (a b : str) : bool :=
  match a, b with [], [] => true | c :: a', d :: b' => Ascii.eqb c d && str_eqb a' b' | _, _ => false end.
Lemma str_eqbP a b : reflect (a = b) (str_eqb a b).
Proof.
apply: (iffP idP) => [|->]; last by elim: b => //= c b ->; rewrite Ascii.eqb_refl.
elim: a b => [|c a IH] [|d b] //= /andP[/Ascii.eqb_eq -> /IH ->] //.
Qed.
Definition column_name (c : nat) : str := List.nth c column_names [].
Lemma names_checked : all (fun c => all (fun d => str_eqb (column_name c) (column_name d) == same_name_ok c d) (iota 0 343)) (iota 0 343).
Proof. by vm_compute. Qed.
(** C101 as a user would want it *)
Definition C101_claim : Prop := forall c d, c < 343 -> d < 343 -> column_name c = column_name d -> c = d.
Theorem C101_refuted : ~ C101_claim.
Proof. by move=> /(_ 47 217 isT isT) h; have := h ltac:(by vm_compute). Qed.
(** exactly the columns of the covariances (1, 10 + d) and (11, d) share their name *)
Theorem C101_names_partial c c' : c < 343 -> c' < 343 ->
  (column_name c = column_name c' <->
   c = c' \/ exists d, d < 8 /\ let a := 1 + 18 + 18 * 1 + (10 + d) in let b := 1 + 18 + 18 * 11 + d in (c, c') = (a, b) \/ (c, c') = (b, a)).
Proof.
move=> hc hd; have := names_checked.
move=> /allP /(_ c); rewrite mem_iota hc => /(_ isT) /allP /(_ c'); rewrite mem_iota hd => /(_ isT) /eqP e; split.
  move=> /str_eqbP; rewrite e /same_name_ok => /orP[/orP[/eqP->|]|]; first by left.
    move=> /andP[/andP[h1 h2] /eqP->]; right; exists (c - 47); split; first lia.
    by left; congr pair; lia.
  move=> /andP[/andP[h1 h2] /eqP->]; right; exists (c' - 47); split; first lia.
  by right; congr pair; lia.
move=> h; apply/str_eqbP; rewrite e /same_name_ok.
case: h => [->|[d [h [[-> ->]|[-> ->]]]]]; first by rewrite eqxx.
  by clear -h; lia.
by clear -h; lia.
Qed.

(** ** C103: the program never fails on good files *)
Definition fits (m : ExMeas) : Prop := size (em_z m) = arity (em_type m).
Lemma measurements_fit fo fi od im : loadCsvFields fo true odom_fields [] = Loaded od -> loadCsvFields fi true imu_fields [] = Loaded im ->
  List.Forall fits (ex_measurements od im).
Proof.
move=> /load_rows ho /load_rows hi; apply/List.Forall_app; split; apply/List.Forall_map; [apply: List.Forall_impl ho|apply: List.Forall_impl hi];
  by move=> [|a r] //= [h]; exact: h.
Qed.
Definition good_sample (s : Sample) : Prop := exists x P, sp_x s = dv (R := R_realFieldType) x /\ sp_cov s = dm (R := R_realFieldType) P /\ est_ok x P.
Lemma inv_sample s : ex_inv s -> good_sample (ex_sample s).
Proof. by move=> [_ [q0 [q1 [x [P [[_ _ _ [e1 e2]] [_ _ h]]]]]]]; exists x, P. Qed.
Lemma loop_ok L : forall ms s, ex_inv s -> List.Forall fits ms ->
  exists samples, ex_loop L s ms = Ok samples /\ List.Forall good_sample samples
    /\ forall k a b m, nth_error (ex_sample s :: samples) k = Some a -> nth_error samples k = Some b -> nth_error ms k = Some m ->
         tle (t := FTime) tzero (fsub64 (em_t m) (sp_t a)) = false -> b = a.
Proof.
elim=> [|m ms IH] s hs hf; first by exists []; do ! split => //; case.
inversion hf as [|? ? h1 h2]; subst.
have [s1 [e1 [i1 r1]]] := correct_ok L hs h1; have [rest [e2 [g2 r2]]] := IH s1 i1 h2.
exists (ex_sample s1 :: rest); split; first by rewrite /= e1 /= e2.
split; first by constructor; [exact: inv_sample|].
case=> [|k] a b m' /=; last exact: r2.
by move=> [<-] [<-] [<-] /r1 ->.
Qed.
Lemma rows_ok dbl : forall samples, List.Forall good_sample samples -> exists rows, ex_rows dbl samples = Ok rows.
Proof.
elim=> [|s l IH] h; first by exists [].
inversion h as [|? ? [x [P [e1 [e2 _]]]] h2]; subst; have [rs er] := IH h2.
by eexists; rewrite /= /ex_row e1 e2 vec_of_dv mat_of_dm /= er.
Qed.
Lemma filter_inv t : ex_inv (ex_filter t).
Proof. by split => //; exists ex_odom, ex_imu, ex_x, ex_cov; split => //; split => //; exact: ex_est0. Qed.

(** every row of the output *)
Theorem C103_estimates srt L dbl argc fo fi samples file : sort_ok srt -> ex_main srt L dbl argc fo fi = Exit0 samples file ->
  List.Forall (fun s => exists (x : 'cV[R]_18) (P : 'M[R]_18), sp_x s = dv (R := R_realFieldType) x /\ sp_cov s = dm (R := R_realFieldType) P
    /\ (forall i : 'I_18, 9 <= i -> x i 0%R = if (i == 11 :> nat) then dec 98062 4 else 0%R)
    /\ psd P
    /\ (forall i j : 'I_18, (9 <= i) || (9 <= j) -> P i j = if i == j then (if i < 12 then dec 1 9 else if i < 15 then dec 1 6 else dec 1 3) else 0%R)) samples.
Proof.
move=> hs /(main_inv hs) [od [im [rows [h1 [h2 [h3 [h4 [h5 [h6 [h7 [h8 _]]]]]]]]]]].
have fit : List.Forall fits (List.map (ex_offset (first_stamp (srt (ex_measurements od im)))) (srt (ex_measurements od im))).
  by apply/List.Forall_map; apply: (Permutation_Forall (Permutation_sym h4)); exact: measurements_fit h1 h2.
have [ss [e [g _]]] := loop_ok L (filter_inv (seconds (first_stamp (srt (ex_measurements od im))) (first_stamp (srt (ex_measurements od im))))) fit; move: h7; rewrite e => -[?]; subst ss.
apply: List.Forall_impl g => s [x [P [e1 [e2 [g1 g2 g3]]]]]; exists x, P; do 3 split => //.
  by move=> i hi; rewrite g1 // mxE /SixD.put; case: i hi => -[|[|[|[|[|[|[|[|[|[|[|[|[|[|[|[|[|[|i]]]]]]]]]]]]]]]]]].
split=> // i j hij; rewrite g3 // mxE; case: eqP => // eij; subst j; rewrite orbb in hij.
by case: i hij => -[|[|[|[|[|[|[|[|[|[|[|[|[|[|[|[|[|[|i]]]]]]]]]]]]]]]]]].
Qed.
(** finite numbers, stamps below 2^1000 (a double has no larger whole numbers a stamp could be), at
    least one measurement: the program succeeds *)
Theorem C103_runs srt L dbl argc fo fi od im : sort_ok srt -> 3 < argc ->
  loadCsvFields fo true odom_fields [] = Loaded od -> loadCsvFields fi true imu_fields [] = Loaded im -> (od ++ im)%list <> [] ->
  List.Forall (fun r => List.Forall (fun x => finite x = true) r /\ moderate (List.hd fzero r)) (od ++ im) ->
  exists samples file, ex_main srt L dbl argc fo fi = Exit0 samples file.
Proof.
move=> hs ha ho hi hn hf; rewrite /ex_main ltnNge ha /= ho hi.
have good : List.Forall (fun m => List.Forall (fun x => finite x = true) (em_z m) /\ moderate (em_t m)) (ex_measurements od im).
  move/List.Forall_app: hf => [f1 f2]; apply/List.Forall_app; split; apply/List.Forall_map; [apply: List.Forall_impl f1|apply: List.Forall_impl f2];
  by move=> [|a r] [h1 h2] //; inversion h1.
have swo : swo_ok (TT := FTime) (List.map em_t (ex_measurements od im)) = true.
  apply: swo_finite; apply/List.Forall_map; apply: List.Forall_impl good => a [_ []] //.
have [hp hso] := hs _ swo; rewrite /ex_prepare swo.
have hnn : ex_measurements od im <> [].
  by rewrite /ex_measurements; case: (od) hn => [|r od'] //=; case: (im).
case em: (srt _) hp hso => [|m ms] hp hso.
  by case: hnn; apply: Permutation_nil.
have good' : List.Forall (fun m => List.Forall (fun x => finite x = true) (em_z m) /\ moderate (em_t m)) (m :: ms) := Permutation_Forall (Permutation_sym hp) good.
have m0 : moderate (em_t m) by inversion good' as [|? ? [_ h] _].
have fin : all ex_finite (List.map (ex_offset (em_t m)) (m :: ms)).
  apply/all_Forall/List.Forall_map; apply: List.Forall_impl good' => a [h1 h2]; apply/andP; split; first exact: seconds_moderate.
  by apply/all_Forall; apply: List.Forall_impl h1 => y ->.
rewrite fin.
have fit : List.Forall fits (List.map (ex_offset (em_t m)) (m :: ms)).
  by apply/List.Forall_map; apply: (Permutation_Forall (Permutation_sym hp)); exact: measurements_fit ho hi.
have [ss [e [g _]]] := loop_ok L (filter_inv (em_t (ex_offset (em_t m) m))) fit; have [rows er] := rows_ok dbl g.
by move: e => /= ->; rewrite /= er; eexists; eexists.
Qed.

(** ** C102: which measurements the filter refuses *)
(** the filter's time before measurement k + 1 is the time of row k; correct() refuses a measurement whose
    time is before it.  As a user would want it, no measurement in the files is refused: *)
Definition C102_claim : Prop := forall srt L dbl argc fo fi samples file od im,
  sort_ok srt -> ex_main srt L dbl argc fo fi = Exit0 samples file ->
  loadCsvFields fo true odom_fields [] = Loaded od -> loadCsvFields fi true imu_fields [] = Loaded im ->
  let ms := srt (ex_measurements od im) in
  forall k row m, nth_error samples k = Some row -> nth_error ms k.+1 = Some m ->
    tle (t := FTime) (sp_t row) (seconds (first_stamp ms) (em_t m)) = true.
Lemma sorted_map : forall l, StronglySorted not_before l -> StronglySorted (fun a b => tlt (t := FTime) b a = false) (List.map em_t l).
Proof. by elim=> [|m l IH] h; constructor; inversion h; subst; [exact: IH|exact/List.Forall_map]. Qed.
(** a refused measurement leaves a row that repeats the one before *)
Theorem C102_refused_partial srt L dbl argc fo fi samples file od im :
  sort_ok srt -> ex_main srt L dbl argc fo fi = Exit0 samples file ->
  loadCsvFields fo true odom_fields [] = Loaded od -> loadCsvFields fi true imu_fields [] = Loaded im ->
  let ms := srt (ex_measurements od im) in
  forall k row row' m, nth_error samples k = Some row -> nth_error samples k.+1 = Some row' -> nth_error ms k.+1 = Some m ->
    tle (t := FTime) (sp_t row) (seconds (first_stamp ms) (em_t m)) = false -> row' = row.
Proof.
move=> hs hm ho hi ms k row row' m e1 e2 e3 late.
have [od' [im' [rows [h1 [h2 [h3 [h4 [h5 [h6 [h7 _]]]]]]]]]] := main_inv hs hm.
move: h1 h2; rewrite ho hi => -[?] -[?]; subst od' im'; rewrite -/ms in h3 h4 h5 h6 h7.
have fit : List.Forall fits (List.map (ex_offset (first_stamp ms)) ms).
  by apply/List.Forall_map; apply: (Permutation_Forall (Permutation_sym h4)); exact: measurements_fit ho hi.
have [ss [e [g r]]] := loop_ok L (filter_inv (seconds (first_stamp ms) (first_stamp ms))) fit; move: h7; rewrite e => -[?]; subst ss.
have ft : finite (seconds (first_stamp ms) (em_t m)) = true.
  by have /List.Forall_forall /(_ m (nth_error_In _ _ e3)) /andP[] := h6.
have fr : finite (sp_t row) = true.
  have [od' [im' [s0 [m0 [ms0 [q1 [q2 [q3 [q4 [_ [_ [hf [hl ht]]]]]]]]]]]]] := main_times hs hm.
  move: q1 q2 q3; rewrite ho hi => -[?] -[?]; subst od' im' s0; rewrite -/ms => q3.
  have [_ [_ pl]] := @times_plausible (em_t m0) (List.map em_t ms0) hf hl.
  have hin : List.In (sp_t row) (List.map sp_t samples) by apply/List.in_map/(nth_error_In _ _ e1).
  by rewrite ht in hin; have /List.Forall_forall /(_ _ hin) [] := pl.
apply: (r k.+1 row row' (ex_offset (first_stamp ms) m)) => //.
  by rewrite List.nth_error_map e3.
by have := fsub_nonneg _ _ ft fr; rewrite /= => ->; exact: late.
Qed.
(** whole nanoseconds over at most 2^49 ns (6.5 days): every row's time is its measurement's to within
    2^-31 s (half a nanosecond), and a measurement is refused only if the one before it has the same stamp *)
Theorem C102_near_partial srt L dbl argc fo fi samples file od im :
  sort_ok srt -> ex_main srt L dbl argc fo fi = Exit0 samples file ->
  loadCsvFields fo true odom_fields [] = Loaded od -> loadCsvFields fi true imu_fields [] = Loaded im ->
  let ms := srt (ex_measurements od im) in
  List.Forall (fun m => exists z : Z, val (em_t m) = IZR z) ms ->
  List.Forall (fun m => (val (em_t m) - val (first_stamp ms) <= 2 ^ 49)%coqR) ms ->
  (forall k row m, nth_error samples k = Some row -> nth_error ms k = Some m ->
     (Rabs (val (sp_t row) - (val (em_t m) - val (first_stamp ms)) / 1000000000) <= bpow radix2 (-31))%coqR)
  /\ (forall k row m m', nth_error samples k = Some row -> nth_error ms k = Some m -> nth_error ms k.+1 = Some m' -> val (em_t m) <> val (em_t m') ->
     tle (t := FTime) (sp_t row) (seconds (first_stamp ms) (em_t m')) = true).
Proof.
move=> hs hm ho hi ms hz hb.
have [od' [im' [s0 [m0 [ms0 [q1 [q2 [q3 [q4 [_ [q5 [hf [hl ht]]]]]]]]]]]]] := main_times hs hm.
move: q1 q2 q3; rewrite ho hi => -[?] -[?]; subst od' im' s0; rewrite -/ms => q3.
have ef : first_stamp ms = em_t m0 by rewrite q3.
rewrite ef q3 in hz hb *.
have fin : List.Forall (fun m => finite (em_t m) = true) (m0 :: ms0).
  by move/List.Forall_map: hf => hf; apply: List.Forall_impl hf => a /seconds_fin [].
have hz' : List.Forall (fun m => exists z : Z, stamp (em_t m) z) (m0 :: ms0).
  apply/List.Forall_forall => m hin; move/List.Forall_forall: hz => /(_ m hin) [z ez]; exists z; split => //.
  by move/List.Forall_forall: fin; apply.
inversion hz' as [|? ? [z0 st0] hz2]; subst; inversion hb as [|? ? _ hb2]; subst.
have es : IZR span = (2 ^ 49)%coqR by rewrite (pow_IZR 2 49).
rewrite -es in hb2.
have [c1 c2] := @near_main (em_t m0) z0 (List.map em_t ms0) st0 (proj2 (List.Forall_map _ _ _) hz2) (proj2 (List.Forall_map _ _ _) hb2) hf (sorted_map q5).
split.
- move=> k row m e1 e2; apply: (c1 k); first exact: (List.map_nth_error em_t k (m0 :: ms0) e2).
  by rewrite -ht; exact: List.map_nth_error.
- move=> k row m m' e1 e2 e3 hne; apply: (c2 k (em_t m)) => //.
  + exact: (List.map_nth_error em_t k (m0 :: ms0) e2).
  + exact: (List.map_nth_error em_t k.+1 (m0 :: ms0) e3).
  by rewrite -ht; exact: List.map_nth_error.
Qed.
(** ** A sort, and concrete files *)
Fixpoint ex_insert (m : ExMeas) (l : list ExMeas) : list ExMeas :=
  match l with [] => [m] | a :: r => if tlt (t := FTime) (em_t a) (em_t m) then a :: ex_insert m r else m :: l end.
Definition ex_isort (l : list ExMeas) : list ExMeas := List.fold_right ex_insert [] l.
Lemma insert_perm m l : Permutation (ex_insert m l) (m :: l).
Proof.
elim: l => [|a l IH] /=; first by [].
case: ifP => _ //; apply: Permutation_trans; last exact: perm_swap.
exact: perm_skip.
Qed.
Lemma isort_perm l : Permutation (ex_isort l) l.
Proof. by elim: l => [|a l IH] //=; apply: Permutation_trans (insert_perm _ _) _; apply: perm_skip. Qed.
Lemma swoP (l : list f64) : swo_ok (TT := FTime) l = true -> forall a b c, List.In a l -> List.In b l -> List.In c l ->
  [/\ tlt (t := FTime) a a = false, (tlt (t := FTime) a b = true -> tlt (t := FTime) b a = false)
    & (tlt (t := FTime) b a = false -> tlt (t := FTime) c b = false -> tlt (t := FTime) c a = false)].
Proof.
move=> h a b c ha hb hc.
have i x : List.In x l -> tlt (t := FTime) x x = false.
  by move=> hx; move/List.forallb_forall: h => /(_ x hx) /andb_prop [/negb_true_iff].
have t x y z : List.In x l -> List.In y l -> List.In z l -> tlt (t := FTime) x y = true -> tlt (t := FTime) y z = true -> tlt (t := FTime) x z = true.
  move=> hx hy hz; move/List.forallb_forall: (h) => /(_ x hx) /andb_prop [_ /List.forallb_forall /(_ y hy) /List.forallb_forall /(_ z hz)].
  by move=> /andb_prop [e _] e1 e2; move: e; rewrite e1 e2.
have u x y z : List.In x l -> List.In y l -> List.In z l -> tlt (t := FTime) x y = false -> tlt (t := FTime) y x = false ->
    tlt (t := FTime) y z = false -> tlt (t := FTime) z y = false -> tlt (t := FTime) x z = false.
  move=> hx hy hz; move/List.forallb_forall: (h) => /(_ x hx) /andb_prop [_ /List.forallb_forall /(_ y hy) /List.forallb_forall /(_ z hz)].
  by move=> /andb_prop [_ e] e1 e2 e3 e4; move: e; rewrite e1 e2 e3 e4; case: (tlt (t := FTime) x z).
split; first exact: i.
- move=> e; case e': (tlt (t := FTime) b a) => //; have := t a b a ha hb ha e e'; by rewrite i.
move=> e1 e2; case e3: (tlt (t := FTime) c a) => //.
case e4: (tlt (t := FTime) a b); first by have := t c a b hc ha hb e3 e4; rewrite e2.
case e5: (tlt (t := FTime) b c); first by have := t b c a hb hc ha e5 e3; rewrite e1.
by rewrite (u c b a) in e3.
Qed.
Lemma isort_ok : sort_ok ex_isort.
Proof.
move=> l h; split; first exact: isort_perm.
have: forall l', List.incl l' l -> StronglySorted not_before (ex_isort l').
  elim=> [|m r IH] hin /=; first by constructor.
  have hm : List.In (em_t m) (List.map em_t l) by apply: List.in_map; apply: hin; left.
  have hr : List.incl (ex_isort r) l by move=> x hx; apply: hin; right; apply: (Permutation_in _ (isort_perm r)).
  have := IH (fun x hx => hin x (or_intror hx)); move: (ex_isort r) hr => s.
  elim: s => [|a s IHs] hs hso; cbn [ex_insert]; first by do ! constructor.
  have ha : List.In (em_t a) (List.map em_t l) by apply: List.in_map; apply: hs; left.
  inversion hso as [|? ? h1 h2]; subst; case e: (tlt (t := FTime) (em_t a) (em_t m)).
    constructor; first by apply: IHs => // x hx; apply: hs; right.
    apply/List.Forall_forall => x hx; have := Permutation_in _ (insert_perm m s) hx; case=> [<-|hx'].
      by have [_ q _] := swoP h ha hm ha; exact: q.
    by move/List.Forall_forall: h2 => /(_ x hx').
  constructor; first by constructor.
  constructor; first exact: e.
  apply/List.Forall_forall => x hx; move/List.Forall_forall: h2 => /(_ x hx) h2.
  have hxl : List.In (em_t x) (List.map em_t l) by apply: List.in_map; apply: hs; right.
  by have [_ _ q] := swoP h hm ha hxl; exact: q.
apply; exact: List.incl_refl.
Qed.
(** the files of Props_ExampleTime.v meet the hypotheses of the theorems of this file *)
Theorem C103_nonvacuous : exists samples file,
  ex_main ex_isort (gnu_lib ex_env) (fun _ => fzero) 4 (Some w_odom_file) (Some w_imu_file) = Exit0 samples file /\ List.length samples = 4.
Proof.
have [samples [file e]] := C103_runs (gnu_lib ex_env) (fun _ => fzero) isort_ok (isT : 3 < 4) w_odom_load w_imu_load (fun H => ltac:(discriminate H)) w_finite.
exists samples, file; split; first exact: e.
have [od [im [mo [mi [ms [[e1 r1] [[e2 r2] [hp [_ [hl _]]]]]]]]]] := C100_rows isort_ok e.
move: e1 e2; rewrite w_odom_load w_imu_load => -[?] -[?]; subst od im.
by rewrite hl (Permutation_length hp) List.app_length -(Forall2_len r1) -(Forall2_len r2).
Qed.
Lemma w_sorted : ex_isort (ex_measurements w_odom_data w_imu_data) = ex_measurements w_odom_data w_imu_data.
Proof.
rewrite /ex_isort /ex_measurements /w_odom_data /w_imu_data; cbn [List.map List.app List.fold_right ex_insert ex_measurement List.hd em_t].
have e1 : tlt (t := FTime) w_s2 w_s2 = false by vm_compute.
have e2 : tlt (t := FTime) w_s2 w_s1 = false by vm_compute.
have e3 : tlt (t := FTime) w_s1 w_s0 = false by vm_compute.
rewrite e1; cbn [ex_insert em_t]; rewrite e2; cbn [ex_insert em_t]; rewrite e3; reflexivity.
Qed.
Theorem C102_refuted : ~ C102_claim.
Proof.
move=> claim; have [samples [file [e hl]]] := C103_nonvacuous.
have c := claim _ _ _ _ _ _ _ _ _ _ isort_ok e w_odom_load w_imu_load.
have [od [im [s0 [m0 [ms0 [q1 [q2 [q3 [q4 [_ [_ [_ [_ ht]]]]]]]]]]]]] := main_times isort_ok e.
move: q1 q2 q3; rewrite w_odom_load w_imu_load => -[?] -[?]; subst od im; rewrite w_sorted => q3.
have es : List.map em_t (m0 :: ms0) = [w_s0; w_s1; w_s2; w_s2] by rewrite -q3.
have e0 : s0 = w_s0 by rewrite q4; exact: (f_equal (List.hd fzero) es).
rewrite es e0 in ht.
have [r e2] : exists r, nth_error samples 2 = Some r.
  by move: samples hl {e c ht} => [|? [|? [|r ?]]] // _; exists r.
have late : tle (t := FTime) (sp_t r) (seconds w_s0 w_s2) = false.
  by apply: w_rows; rewrite -ht; exact: (List.map_nth_error sp_t 2 _ e2).
have := c 2 r (ex_measurement IMU [w_s2; fl64 1 (-1); fl64 0 0; fl64 39 (-2); fl64 0 0; fl64 0 0; fl64 1 (-2)]) e2.
rewrite w_sorted => /(_ (erefl _)); cbn [first_stamp ex_measurements w_odom_data List.map List.app ex_measurement List.hd em_t].
move=> h; clear -h late; by rewrite late in h.
Qed.
(** and those of C102_near_partial *)
Example C102_near_nonvacuous : let ms := ex_isort (ex_measurements w_odom_data w_imu_data) in
  List.Forall (fun m => exists z : Z, val (em_t m) = IZR z) ms /\ List.Forall (fun m => (val (em_t m) - val (first_stamp ms) <= 2 ^ 49)%coqR) ms.
Proof.
move=> ms; have es : List.map em_t ms = [w_s0; w_s1; w_s2; w_s2] by rewrite /ms w_sorted.
have e0 : first_stamp ms = w_s0 by rewrite /ms w_sorted.
rewrite e0; have [h1 h2] := w_whole; rewrite -es in h1 h2.
by split; [move/List.Forall_map: h1|move/List.Forall_map: h2].
Qed.
