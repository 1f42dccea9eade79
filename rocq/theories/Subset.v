(** src/utilities/data_subset_utilities.cpp: reading and writing sub-vectors and sub-matrices
    through index lists.

    Eigen::VectorXd and Eigen::MatrixXd are a size and a function on indices; every access checks
    the bounds ([Ub ub_oob], an Eigen assertion / out of bounds access).  Entries of a freshly
    constructed Eigen object are indeterminate: they come from an arbitrary function [junk].

    Loops have a uint16_t counter, which wraps to 0 after 65535.  [fuel] bounds the number of
    tests of each loop condition; [Ub ub_diverges] is returned when it runs out, so a call
    terminates iff its result is not [Ub ub_diverges] for some fuel. *)
From Coq Require Import List Arith Bool Lia.
From Verif Require Import Outcome.
Import ListNotations.

(** the number of values of uint16_t *)
Definition word : nat := 2 ^ 16.
Lemma word_nz : word <> 0.
Proof. apply Nat.pow_nonzero. discriminate. Qed.
Global Opaque word.

Section Subset.
Variable A : Type.
Variable zero : A.
Variable junk : nat -> nat -> A.

Record vec : Type := mkVec { vsize : nat; vat : nat -> A }.
Record mat : Type := mkMat { rows : nat; cols : nat; at_ : nat -> nat -> A }.

(** x(i), x(i, j) *)
Definition vget (x : vec) (i : nat) : outcome A :=
  if i <? vsize x then Ok (vat x i) else Ub ub_oob.
Definition mget (x : mat) (i j : nat) : outcome A :=
  if (i <? rows x) && (j <? cols x) then Ok (at_ x i j) else Ub ub_oob.
(** x(i) = a, x(i, j) = a *)
Definition vset (x : vec) (i : nat) (a : A) : outcome vec :=
  if i <? vsize x then Ok (mkVec (vsize x) (fun k => if k =? i then a else vat x k)) else Ub ub_oob.
Definition mset (x : mat) (i j : nat) (a : A) : outcome mat :=
  if (i <? rows x) && (j <? cols x)
  then Ok (mkMat (rows x) (cols x) (fun k l => if (k =? i) && (l =? j) then a else at_ x k l)) else Ub ub_oob.
(** map[i] of a std::vector *)
Definition nthm (map : list nat) (i : nat) : outcome nat :=
  match nth_error map i with Some k => Ok k | None => Ub ub_oob end.

(** for (uint16_t i = i0; i < n; ++i) body *)
Fixpoint loop16 {S : Type} (fuel n i : nat) (body : nat -> S -> outcome S) (s : S) : outcome S :=
  match fuel with
  | 0 => Ub ub_diverges
  | Datatypes.S f =>
    if i <? n then let* s' := body i s in loop16 f n ((i + 1) mod word) body s' else Ok s
  end.

(** conversion to uint16_t *)
Definition u16 (n : nat) : nat := n mod word.
(** map.empty() ? i : map[i] *)
Definition idx (map : list nat) (i : nat) : outcome nat :=
  match map with [] => Ok i | _ => nthm map i end.

(** data_subset_utilities.cpp:6-17 *)
Definition getSubset (fuel : nat) (x : vec) (map : list nat) : outcome vec :=
  match map with
  | [] => Ok x
  | _ =>
    let subset := mkVec (length map) (junk 0) in
    loop16 fuel (vsize subset) 0 (fun i s =>
      let* k := nthm map i in let* a := vget x k in vset s i a) subset
  end.

(** data_subset_utilities.cpp:19-37 *)
Definition getSubsetRC (fuel : nat) (x : mat) (row_map col_map : list nat) : outcome mat :=
  match row_map, col_map with
  | [], [] => Ok x
  | _, _ =>
    let r := u16 (match row_map with [] => rows x | _ => length row_map end) in
    let c := u16 (match col_map with [] => cols x | _ => length col_map end) in
    loop16 fuel r 0 (fun i s => loop16 fuel c 0 (fun j s =>
      let* k := idx row_map i in let* l := idx col_map j in
      let* a := mget x k l in mset s i j a) s) (mkMat r c junk)
  end.

(** data_subset_utilities.cpp:39-52 *)
Definition getSubsetSq (fuel : nat) (x : mat) (map : list nat) : outcome mat :=
  match map with
  | [] => Ok x
  | _ =>
    let n := length map in
    loop16 fuel n 0 (fun i s => loop16 fuel n 0 (fun j s =>
      let* k := nthm map i in let* l := nthm map j in
      let* a := mget x k l in mset s i j a) s) (mkMat n n junk)
  end.

(** data_subset_utilities.cpp:54-63.  The output parameter [*full] is returned. *)
Definition convertSubsetToFull (fuel : nat) (subset full : vec) (map : list nat) : outcome vec :=
  match map with
  | [] => Ok subset
  | _ => loop16 fuel (length map) 0 (fun i f =>
           let* k := nthm map i in let* a := vget subset i in vset f k a) full
  end.

(** data_subset_utilities.cpp:65-81 *)
Definition convertSubsetToFullRC (fuel : nat) (subset full : mat) (row_map col_map : list nat) : outcome mat :=
  match row_map, col_map with
  | [], [] => Ok subset
  | _, _ =>
    let r := u16 (match row_map with [] => rows full | _ => length row_map end) in
    let c := u16 (match col_map with [] => cols full | _ => length col_map end) in
    loop16 fuel r 0 (fun i f => loop16 fuel c 0 (fun j f =>
      let* k := idx row_map i in let* l := idx col_map j in
      let* a := mget subset i j in mset f k l a) f) full
  end.

(** data_subset_utilities.cpp:83-94 *)
Definition convertSubsetToFullSq (fuel : nat) (subset full : mat) (map : list nat) : outcome mat :=
  match map with
  | [] => Ok subset
  | _ =>
    loop16 fuel (length map) 0 (fun i f => loop16 fuel (length map) 0 (fun j f =>
      let* k := nthm map i in let* l := nthm map j in
      let* a := mget subset i j in mset f k l a) f) full
  end.

(** data_subset_utilities.cpp:96-108 *)
Definition convertSubsetToFullZeroed (fuel : nat) (subset : vec) (map : list nat) (n : nat) : outcome vec :=
  match map with
  | [] => Ok subset
  | _ => loop16 fuel (length map) 0 (fun i f =>
           let* k := nthm map i in let* a := vget subset i in vset f k a) (mkVec n (fun _ => zero))
  end.

(** data_subset_utilities.cpp:110-131; m, n are uint16_t *)
Definition convertSubsetToFullZeroedRC (fuel : nat) (subset : mat) (row_map col_map : list nat) (m n : nat) : outcome mat :=
  match row_map, col_map with
  | [], [] => Ok subset
  | _, _ =>
    let r := u16 (match row_map with [] => m | _ => length row_map end) in
    let c := u16 (match col_map with [] => n | _ => length col_map end) in
    loop16 fuel r 0 (fun i f => loop16 fuel c 0 (fun j f =>
      let* k := idx row_map i in let* l := idx col_map j in
      let* a := mget subset i j in mset f k l a) f) (mkMat m n (fun _ _ => zero))
  end.

(** data_subset_utilities.cpp:133-147 *)
Definition convertSubsetToFullZeroedSq (fuel : nat) (subset : mat) (map : list nat) (m : nat) : outcome mat :=
  match map with
  | [] => Ok subset
  | _ =>
    loop16 fuel (length map) 0 (fun i f => loop16 fuel (length map) 0 (fun j f =>
      let* k := nthm map i in let* l := nthm map j in
      let* a := mget subset i j in mset f k l a) f) (mkMat m m (fun _ _ => zero))
  end.

(** ** Specification vocabulary *)
(** an empty list of indices stands for all of them *)
Definition allOr (map : list nat) (n : nat) : list nat := match map with [] => seq 0 n | _ => map end.
(** valid, distinct indices below n *)
Definition validMap (map : list nat) (n : nat) : Prop := NoDup map /\ Forall (fun i => i < n) map.
(** equal size and equal entries *)
Definition veq (x y : vec) : Prop := vsize x = vsize y /\ forall i, i < vsize x -> vat x i = vat y i.
Definition meq (x y : mat) : Prop := rows x = rows y /\ cols x = cols y /\
  forall i j, i < rows x -> j < cols x -> at_ x i j = at_ y i j.

(** ** Loops *)
Lemma loop16_rule {S} (I : nat -> S -> Prop) n body fuel s :
  n < word -> n < fuel -> I 0 s ->
  (forall i s, i < n -> I i s -> exists s', body i s = Ok s' /\ I (i + 1) s') ->
  exists s', loop16 fuel n 0 body s = Ok s' /\ I n s'.
Proof.
  intros Hn Hf H0 Hstep.
  assert (G : forall fuel i s, n - i < fuel -> i <= n -> I i s -> exists s', loop16 fuel n i body s = Ok s' /\ I n s').
  { clear fuel s Hf H0. induction fuel as [|f IH]; intros i s Hf Hi HI; [lia|]. cbn [loop16].
    destruct (Nat.ltb_spec i n) as [Hlt|Hge].
    - destruct (Hstep i s Hlt HI) as (s' & E & HI'). rewrite E. cbn [obind].
      rewrite Nat.mod_small by lia. apply IH; [lia|lia|exact HI'].
    - replace i with n in * by lia. eauto. }
  apply (G fuel 0 s); auto; lia.
Qed.

(** a wrapping loop whose body never fails does not end *)
Lemma loop16_diverges {S} (I : S -> Prop) n body :
  word <= n -> (forall i s, i < word -> I s -> exists s', body i s = Ok s' /\ I s') ->
  forall fuel i s, i < word -> I s -> loop16 fuel n i body s = Ub ub_diverges.
Proof.
  intros Hn Hstep. induction fuel as [|f IH]; intros i s Hi HI; [reflexivity|]. cbn [loop16].
  destruct (Nat.ltb_spec i n) as [_|Hge]; [|lia].
  destruct (Hstep i s Hi HI) as (s' & E & HI'). rewrite E. cbn [obind]. apply IH; auto.
  apply Nat.mod_upper_bound. exact word_nz.
Qed.

(** a loop with a bound below 65536 ends *)
Lemma loop16_ends {S} n body fuel (s : S) :
  n < word -> n < fuel -> (forall i s, body i s <> Ub ub_diverges) ->
  loop16 fuel n 0 body s <> Ub ub_diverges.
Proof.
  intros Hn Hf Hb.
  assert (G : forall fuel i s, n - i < fuel -> i <= n -> loop16 fuel n i body s <> Ub ub_diverges).
  { clear fuel s Hf. induction fuel as [|f IH]; intros i s Hf Hi; [lia|]. cbn [loop16].
    destruct (Nat.ltb_spec i n) as [Hlt|Hge]; [|discriminate].
    destruct (body i s) as [s'|c] eqn:E; cbn [obind].
    - rewrite Nat.mod_small by lia. apply IH; lia.
    - intros H. injection H as ->. apply (Hb i s), E. }
  apply G; lia.
Qed.

Lemma loop16_ext {S} n body body' : (forall i (s : S), i < n -> body i s = body' i s) ->
  forall fuel i s, loop16 fuel n i body s = loop16 fuel n i body' s.
Proof.
  intros H. induction fuel as [|f IH]; intros i s; cbn [loop16]; auto.
  destruct (Nat.ltb_spec i n); auto. rewrite H by auto. apply obind_ext. auto.
Qed.

Lemma nthm_ok map i : i < length map -> nthm map i = Ok (nth i map 0).
Proof. intros H. unfold nthm. rewrite (nth_error_nth' map 0 H). reflexivity. Qed.
Lemma valid_nth map n i : validMap map n -> i < length map -> nth i map 0 < n.
Proof. intros (_ & HF) Hi. rewrite Forall_forall in HF. apply HF, nth_In, Hi. Qed.
Lemma valid_length map n : validMap map n -> length map <= n.
Proof.
  intros (Hn & HF). rewrite <- (seq_length n 0). apply NoDup_incl_length; auto.
  intros i Hi. rewrite Forall_forall in HF. apply in_seq. specialize (HF i Hi). simpl in HF. lia.
Qed.
Lemma valid_allOr map n : validMap map n -> validMap (allOr map n) n.
Proof.
  intros H. destruct map as [|a m]; [|exact H]. split; [apply seq_NoDup|].
  apply Forall_forall. intros i Hi. apply in_seq in Hi. lia.
Qed.
Lemma idx_allOr map n i : i < length (allOr map n) -> idx map i = Ok (nth i (allOr map n) 0).
Proof.
  intros H. destruct map as [|a m]; [|apply nthm_ok, H]. simpl in *. rewrite seq_length in H.
  rewrite seq_nth by auto. reflexivity.
Qed.

(** *** vectors *)
Lemma vget_ok x i : i < vsize x -> vget x i = Ok (vat x i).
Proof. intros H. unfold vget. apply Nat.ltb_lt in H. rewrite H. reflexivity. Qed.
Lemma vset_ok x i a : i < vsize x -> vset x i a = Ok (mkVec (vsize x) (fun k => if k =? i then a else vat x k)).
Proof. intros H. unfold vset. apply Nat.ltb_lt in H. rewrite H. reflexivity. Qed.
Lemma mget_ok x i j : i < rows x -> j < cols x -> mget x i j = Ok (at_ x i j).
Proof. intros H H'. unfold mget. apply Nat.ltb_lt in H, H'. rewrite H, H'. reflexivity. Qed.
Lemma mset_ok x i j a : i < rows x -> j < cols x ->
  mset x i j a = Ok (mkMat (rows x) (cols x) (fun k l => if (k =? i) && (l =? j) then a else at_ x k l)).
Proof. intros H H'. unfold mset. apply Nat.ltb_lt in H, H'. rewrite H, H'. reflexivity. Qed.

Lemma getSubset_spec fuel x map : length map < word -> length map < fuel -> Forall (fun i => i < vsize x) map ->
  exists s, getSubset fuel x map = Ok s /\ vsize s = length (allOr map (vsize x)) /\
    forall i, i < vsize s -> vat s i = vat x (nth i (allOr map (vsize x)) 0).
Proof.
  intros Hn Hf HF. destruct map as [|a m].
  - exists x. simpl. rewrite seq_length. repeat split; auto. intros i Hi. rewrite seq_nth; auto.
  - remember (a :: m) as map eqn:Em.
    replace (getSubset fuel x map) with (loop16 fuel (length map) 0 (fun i s =>
      let* k := nthm map i in let* a := vget x k in vset s i a) (mkVec (length map) (junk 0))) by (subst; reflexivity).
    replace (allOr map (vsize x)) with map by (subst; reflexivity).
    destruct (loop16_rule (fun i s => vsize s = length map /\ forall k, k < i -> vat s k = vat x (nth k map 0))
      (length map) (fun i s => let* k := nthm map i in let* a := vget x k in vset s i a) fuel
      (mkVec (length map) (junk 0)) Hn Hf) as (s & E & HI).
    + split; auto. intros; lia.
    + intros i s Hi (Hs & Hk). rewrite Forall_forall in HF.
      rewrite nthm_ok by auto. cbn [obind]. rewrite vget_ok by (apply HF, nth_In; auto). cbn [obind].
      rewrite vset_ok by lia. eexists. split; [reflexivity|]. split; auto. cbn.
      intros k Hk'. destruct (Nat.eqb_spec k i) as [->|]; auto. apply Hk. lia.
    + exists s. destruct HI as (Hs & Hk). repeat split; auto. intros i Hi. apply Hk. lia.
Qed.

Lemma NoDup_nth_inj (l : list nat) i j : NoDup l -> i < length l -> j < length l -> nth i l 0 = nth j l 0 -> i = j.
Proof. intros H. apply (proj1 (NoDup_nth l 0) H). Qed.

Lemma scatter_spec fuel subset full map : map <> [] -> validMap map (vsize full) -> length map < word -> length map < fuel ->
  vsize subset = length map ->
  exists f, loop16 fuel (length map) 0 (fun i f =>
           let* k := nthm map i in let* a := vget subset i in vset f k a) full = Ok f /\
    vsize f = vsize full /\ (forall k, k < length map -> vat f (nth k map 0) = vat subset k) /\
    (forall i, ~ In i map -> vat f i = vat full i).
Proof.
  intros Hne HV Hn Hf Hs.
  destruct (loop16_rule (fun i f => vsize f = vsize full /\ (forall k, k < i -> vat f (nth k map 0) = vat subset k)
      /\ (forall i, ~ In i map -> vat f i = vat full i))
      (length map) (fun i f => let* k := nthm map i in let* a := vget subset i in vset f k a) fuel full Hn Hf) as (s & E & HI).
  - repeat split; auto. intros; lia.
  - intros i f Hi (Hsz & Hk & Ho). rewrite nthm_ok by auto. cbn [obind]. rewrite vget_ok by lia. cbn [obind].
    assert (nth i map 0 < vsize full) by (apply valid_nth; auto).
    rewrite vset_ok by lia. eexists. split; [reflexivity|]. cbn. split; [auto|]. split.
    + intros k Hki. destruct (Nat.eqb_spec (nth k map 0) (nth i map 0)) as [Heq|Hne'].
      * apply NoDup_nth_inj in Heq; [subst; auto|apply HV|lia|lia].
      * apply Hk. assert (k <> i) by congruence. lia.
    + intros j Hj. destruct (Nat.eqb_spec j (nth i map 0)) as [->|]; auto. destruct Hj. apply nth_In, Hi.
  - exists s. auto.
Qed.

(** *** matrices *)
Lemma gather2_spec fuel x rm cm (getr getc : nat -> outcome nat) s0 :
  (forall i, i < length rm -> getr i = Ok (nth i rm 0)) -> (forall i, i < length cm -> getc i = Ok (nth i cm 0)) ->
  length rm < word -> length cm < word -> length rm < fuel -> length cm < fuel ->
  Forall (fun i => i < rows x) rm -> Forall (fun i => i < cols x) cm ->
  rows s0 = length rm -> cols s0 = length cm ->
  exists s, loop16 fuel (length rm) 0 (fun i s => loop16 fuel (length cm) 0 (fun j s =>
      let* k := getr i in let* l := getc j in
      let* a := mget x k l in mset s i j a) s) s0 = Ok s /\ rows s = length rm /\ cols s = length cm /\
    forall i j, i < length rm -> j < length cm -> at_ s i j = at_ x (nth i rm 0) (nth j cm 0).
Proof.
  intros Hgr Hgc Hr Hc Hfr Hfc HR HC Hr0 Hc0. rewrite Forall_forall in HR, HC.
  destruct (loop16_rule (fun i s => rows s = length rm /\ cols s = length cm /\
     forall k j, k < i -> j < length cm -> at_ s k j = at_ x (nth k rm 0) (nth j cm 0)) (length rm)
     (fun i s => loop16 fuel (length cm) 0 (fun j s =>
      let* k := getr i in let* l := getc j in let* a := mget x k l in mset s i j a) s) fuel s0 Hr Hfr) as (s & E & Hs1 & Hs2 & Hs3).
  - repeat split; auto. intros; lia.
  - intros i s Hi (A1 & A2 & A3).
    destruct (loop16_rule (fun j s => rows s = length rm /\ cols s = length cm /\
       (forall k j, k < i -> j < length cm -> at_ s k j = at_ x (nth k rm 0) (nth j cm 0)) /\
       forall l, l < j -> at_ s i l = at_ x (nth i rm 0) (nth l cm 0)) (length cm)
       (fun j s => let* k := getr i in let* l := getc j in let* a := mget x k l in mset s i j a) fuel s Hc Hfc)
      as (s' & E' & B1 & B2 & B3 & B4).
    + repeat split; auto. intros; lia.
    + intros j t Hj (B1 & B2 & B3 & B4). rewrite Hgr, Hgc by auto. cbn [obind].
      rewrite mget_ok by (try (apply HR, nth_In; auto); try (apply HC, nth_In; auto)). cbn [obind].
      rewrite mset_ok by lia. eexists. split; [reflexivity|]. cbn. repeat split; auto.
      * intros k l Hk Hl. destruct (Nat.eqb_spec k i); [lia|]. cbn. auto.
      * intros l Hl. rewrite Nat.eqb_refl. cbn. destruct (Nat.eqb_spec l j) as [->|]; auto. apply B4. lia.
    + exists s'. split; auto. repeat split; auto. intros k j Hk Hj. destruct (Nat.eq_dec k i) as [->|]; auto. apply B3; lia.
  - exists s. repeat split; auto.
Qed.

Lemma scatter2_spec fuel subset full rm cm (getr getc : nat -> outcome nat) :
  (forall i, i < length rm -> getr i = Ok (nth i rm 0)) -> (forall i, i < length cm -> getc i = Ok (nth i cm 0)) ->
  validMap rm (rows full) -> validMap cm (cols full) ->
  length rm < word -> length cm < word -> length rm < fuel -> length cm < fuel ->
  rows subset = length rm -> cols subset = length cm ->
  exists f, loop16 fuel (length rm) 0 (fun i f => loop16 fuel (length cm) 0 (fun j f =>
      let* k := getr i in let* l := getc j in
      let* a := mget subset i j in mset f k l a) f) full = Ok f /\ rows f = rows full /\ cols f = cols full /\
    (forall i j, i < length rm -> j < length cm -> at_ f (nth i rm 0) (nth j cm 0) = at_ subset i j) /\
    (forall i j, ~ (In i rm /\ In j cm) -> at_ f i j = at_ full i j).
Proof.
  intros Hgr Hgc HVr HVc Hr Hc Hfr Hfc Hr0 Hc0.
  destruct (loop16_rule (fun i f => rows f = rows full /\ cols f = cols full /\
     (forall k j, k < i -> j < length cm -> at_ f (nth k rm 0) (nth j cm 0) = at_ subset k j) /\
     (forall i j, ~ (In i rm /\ In j cm) -> at_ f i j = at_ full i j)) (length rm)
     (fun i f => loop16 fuel (length cm) 0 (fun j f =>
      let* k := getr i in let* l := getc j in let* a := mget subset i j in mset f k l a) f) fuel full Hr Hfr)
    as (s & E & Hs1 & Hs2 & Hs3 & Hs4).
  - repeat split; auto. intros; lia.
  - intros i s Hi (A1 & A2 & A3 & A4).
    destruct (loop16_rule (fun j f => rows f = rows full /\ cols f = cols full /\
     (forall k j, k < i -> j < length cm -> at_ f (nth k rm 0) (nth j cm 0) = at_ subset k j) /\
     (forall l, l < j -> at_ f (nth i rm 0) (nth l cm 0) = at_ subset i l) /\
     (forall i j, ~ (In i rm /\ In j cm) -> at_ f i j = at_ full i j)) (length cm)
       (fun j f => let* k := getr i in let* l := getc j in let* a := mget subset i j in mset f k l a) fuel s Hc Hfc)
      as (s' & E' & B1 & B2 & B3 & B4 & B5).
    + repeat split; auto. intros; lia.
    + intros j t Hj (B1 & B2 & B3 & B4 & B5). rewrite Hgr, Hgc by auto. cbn [obind].
      rewrite mget_ok by lia. cbn [obind].
      assert (nth i rm 0 < rows full) by (apply valid_nth; auto). assert (nth j cm 0 < cols full) by (apply valid_nth; auto).
      rewrite mset_ok by lia. eexists. split; [reflexivity|]. cbn. repeat split; auto.
      * intros k l Hk Hl. destruct (Nat.eqb_spec (nth k rm 0) (nth i rm 0)) as [Heq|]; [|cbn; auto].
        apply NoDup_nth_inj in Heq; [lia|apply HVr|lia|lia].
      * intros l Hl. rewrite Nat.eqb_refl. cbn. destruct (Nat.eqb_spec (nth l cm 0) (nth j cm 0)) as [Heq|Hne].
        -- apply NoDup_nth_inj in Heq; [subst; auto|apply HVc|lia|lia].
        -- apply B4. assert (l <> j) by congruence. lia.
      * intros k l Hn. destruct (Nat.eqb_spec k (nth i rm 0)) as [->|]; [|cbn; auto].
        destruct (Nat.eqb_spec l (nth j cm 0)) as [->|]; [|cbn; auto].
        destruct Hn. split; apply nth_In; auto.
    + exists s'. split; auto. repeat split; auto. intros k j Hk Hj. destruct (Nat.eq_dec k i) as [->|]; auto. apply B3; lia.
  - exists s. repeat split; auto.
Qed.
End Subset.
Arguments vsize {A}. Arguments vat {A}. Arguments rows {A}. Arguments cols {A}. Arguments at_ {A}.
Arguments mkVec {A}. Arguments mkMat {A}. Arguments veq {A}. Arguments meq {A}.
