(** C98: loadCsvFields reads the numbers that are in the file.
    C99: what is written to a file and read back. *)
From Coq Require Import ZArith Reals Lra Lia List Bool Ascii String DecimalN.
From Flocq Require Import Core IEEE754.BinarySingleNaN.
From Verif Require Import FloatTime AngleFloat Csv.
Import ListNotations.

(** ** Lines and fields *)

(** the text [s] consists of the pieces [ls], each followed by [d]; the last [d] may be missing if
    the last piece is not empty *)
Definition separated (d : ascii) (s : str) (ls : list str) : Prop :=
  Forall (fun l => ~ In d l) ls /\
  (s = List.concat (map (fun l => l ++ [d]) ls) \/
   exists ls' last, ls = ls' ++ [last] /\ last <> [] /\ s = List.concat (map (fun l => l ++ [d]) ls') ++ last).

Lemma until_sep d l r : ~ In d l -> until d (l ++ d :: r) = (l, r).
Proof.
  induction l as [|c l IH]; simpl; intros H; [rewrite Ascii.eqb_refl; reflexivity|].
  destruct (Ascii.eqb_spec c d) as [->|N]; [tauto|]. rewrite IH; auto.
Qed.
Lemma until_end d l : ~ In d l -> until d l = (l, []).
Proof.
  induction l as [|c l IH]; simpl; intros H; [reflexivity|].
  destruct (Ascii.eqb_spec c d) as [->|N]; [tauto|]. rewrite IH; auto.
Qed.
Lemma until_len d s : (List.length (snd (until d s)) <= List.length s)%nat.
Proof. induction s as [|c s IH]; simpl; [lia|]. destruct (Ascii.eqb c d); simpl; lia. Qed.
Lemma until_len1 d c s : (List.length (snd (until d (c :: s))) <= List.length s)%nat.
Proof. simpl. destruct (Ascii.eqb c d); simpl; [lia|]. apply until_len. Qed.
Lemma getlines_fuel d n : forall s, (List.length s <= n)%nat -> getlines n d s = getlines (List.length s) d s.
Proof.
  assert (forall n m s, (List.length s <= n)%nat -> (List.length s <= m)%nat -> getlines n d s = getlines m d s) as H.
  { clear n. intros n. induction n as [|n IH]; intros m s H1 H2.
    - destruct s; [|simpl in H1; lia]. destruct m; reflexivity.
    - destruct m as [|m]; [destruct s; [reflexivity|simpl in H2; lia]|].
      destruct s as [|c s]; [reflexivity|]. cbn [getlines getline].
      pose proof (until_len1 d c s) as Hl. destruct (until d (c :: s)) as [l r] eqn:E. cbn [snd] in Hl.
      simpl in H1, H2. f_equal. apply IH; lia. }
  intros s Hs. apply H; auto.
Qed.
Lemma getlines_cons d l r : ~ In d l -> getlines (List.length (l ++ d :: r)) d (l ++ d :: r) = l :: getlines (List.length r) d r.
Proof.
  intros H. destruct (l ++ d :: r) as [|c s] eqn:E; [destruct l; discriminate|].
  cbn [List.length getlines getline]. rewrite <- E, until_sep by auto. f_equal. apply getlines_fuel.
  pose proof (until_len1 d c s) as Hl. rewrite <- E, until_sep in Hl by auto. exact Hl.
Qed.
Lemma getlines_concat d ls r : Forall (fun l => ~ In d l) ls ->
  getlines (List.length (List.concat (map (fun l => l ++ [d]) ls) ++ r)) d (List.concat (map (fun l => l ++ [d]) ls) ++ r) = ls ++ getlines (List.length r) d r.
Proof.
  induction 1 as [|l ls Hl _ IH]; [reflexivity|]. simpl. rewrite <- app_assoc. simpl. rewrite <- app_assoc. simpl.
  rewrite getlines_cons by auto. f_equal. exact IH.
Qed.
Lemma getlines_sep d s ls : separated d s ls -> getlines (List.length s) d s = ls.
Proof.
  intros (Hf & [->|(ls' & la & -> & Hn & ->)]).
  - rewrite <- (app_nil_r (List.concat _)), getlines_concat by auto. simpl. apply app_nil_r.
  - apply Forall_app in Hf as (H1 & H2). rewrite getlines_concat by auto. f_equal.
    apply Forall_inv in H2. destruct la as [|c la]; [congruence|]. cbn [List.length getlines getline].
    rewrite until_end by auto. f_equal. destruct (List.length la); reflexivity.
Qed.
Lemma until_spec d s : let '(l, r) := until d s in ~ In d l /\ (s = l ++ d :: r \/ s = l /\ r = []).
Proof.
  induction s as [|c s IH]; simpl; [tauto|]. destruct (Ascii.eqb_spec c d) as [->|N]; [simpl; auto|].
  destruct (until d s) as [l r]. simpl. destruct IH as (H1 & [-> | (-> & ->)]); split; auto; simpl; intros [->|?]; tauto.
Qed.
Lemma sep_exists d n : forall s, (List.length s <= n)%nat -> separated d s (getlines n d s).
Proof.
  induction n as [|n IH]; intros s Hs.
  - destruct s; [|simpl in Hs; lia]. split; [constructor|left; reflexivity].
  - destruct s as [|c s]; [split; [constructor|left; reflexivity]|]. cbn [getlines getline].
    pose proof (until_len1 d c s) as Hl. pose proof (until_spec d (c :: s)) as Hu.
    destruct (until d (c :: s)) as [l r]. cbn [snd] in Hl. destruct Hu as (Hd & [E|(E & ->)]).
    + simpl in Hs. destruct (IH r) as (Hf & Ho); [lia|]. split; [constructor; auto|].
      destruct Ho as [E3|(ls' & la & E2 & Hn & E3)].
      * left. cbn [map List.concat]. rewrite <- E3, <- app_assoc. exact E.
      * right. exists (l :: ls'), la. split; [simpl; congruence|]. split; auto. cbn [map List.concat]. rewrite <- !app_assoc, <- E3. exact E.
    + replace (getlines n d []) with (@nil str) by (destruct n; reflexivity). split; [constructor; auto|].
      right. exists [], l. repeat split; auto. intros ->. discriminate.
Qed.
(** every text is made of exactly one list of lines, and that is what is read *)
Theorem C98_lines d s : exists! ls, separated d s ls.
Proof.
  exists (getlines (List.length s) d s). split; [apply sep_exists; lia|]. intros ls H. apply getlines_sep; auto.
Qed.

(** ** Numbers *)

Definition is_digit (n : Z) : Prop := (0 <= n <= 9)%Z.
(** the characters of some decimal digits, and the number they stand for *)
Definition digit_symbol (n : Z) : ascii := nth (Z.to_nat n) (lit "0123456789") "0"%char.
Definition chars (ds : list Z) : str := map digit_symbol ds.
Definition number (ds : list Z) : Z := fold_left (fun a d => 10 * a + d)%Z ds 0%Z.

Lemma digit_symbol_char n : is_digit n -> digit_char n = digit_symbol n.
Proof.
  unfold is_digit. intros H. assert (n = 0 \/ n = 1 \/ n = 2 \/ n = 3 \/ n = 4 \/ n = 5 \/ n = 6 \/ n = 7 \/ n = 8 \/ n = 9)%Z as D by lia.
  repeat (destruct D as [->|D]; [reflexivity|]). subst. reflexivity.
Qed.
Lemma digit_char_ok n : is_digit n -> digit (digit_symbol n) = Some n.
Proof.
  unfold is_digit. intros H. assert (n = 0 \/ n = 1 \/ n = 2 \/ n = 3 \/ n = 4 \/ n = 5 \/ n = 6 \/ n = 7 \/ n = 8 \/ n = 9)%Z as D by lia.
  repeat (destruct D as [->|D]; [reflexivity|]). subst. reflexivity.
Qed.
Definition no_digit (s : str) : Prop := match s with c :: _ => digit c = None | [] => True end.
Lemma read_digits_chars ds s : Forall is_digit ds -> no_digit s -> forall a k,
  read_digits a k (chars ds ++ s) = (fold_left (fun a d => 10 * a + d)%Z ds a, (k + Z.of_nat (List.length ds))%Z, s).
Proof.
  intros Hd Hs. induction Hd as [|d ds H1 _ IH]; intros a k.
  - cbn [chars map app fold_left List.length Z.of_nat]. rewrite Z.add_0_r. destruct s as [|c s]; simpl; [|simpl in Hs; rewrite Hs]; reflexivity.
  - cbn [chars map app read_digits]. rewrite digit_char_ok by auto. fold (chars ds). rewrite IH. cbn [fold_left List.length]. rewrite Nat2Z.inj_succ. replace (k + 1 + Z.of_nat (List.length ds))%Z with (k + Z.succ (Z.of_nat (List.length ds)))%Z by lia. reflexivity.
Qed.
Lemma horner_app ds ds' : fold_left (fun a d => 10 * a + d)%Z ds' (number ds) = number (ds ++ ds').
Proof. unfold number. rewrite fold_left_app. reflexivity. Qed.

Open Scope R_scope.
Definition ten (e : Z) : R := bpow (Build_radix 10 eq_refl) e.
Lemma ten_pos e : 0 < ten e.
Proof. apply bpow_gt_0. Qed.
Lemma ten_Z e : (0 <= e)%Z -> ten e = IZR (10 ^ e).
Proof. intros. symmetry. apply (IZR_Zpower (Build_radix 10 eq_refl)). auto. Qed.
Definition signed (s : bool) (x : R) : R := if s then - x else x.
Lemma signed_abs s x : Rabs (signed s x) = Rabs x.
Proof. destruct s; simpl; [apply Rabs_Ropp|reflexivity]. Qed.

Lemma val_SF2B x (H : SpecFloat.valid_binary 53 1024 x = true) : val (SF2B x H) = SF2R radix2 x.
Proof. apply B2R_SF2B. Qed.
Lemma div_to_f64_ok s a b : Rabs (rnd64 (signed s (IZR (Zpos a) / IZR (Zpos b)))) < bpow radix2 1024 ->
  val (div_to_f64 s a b) = rnd64 (signed s (IZR (Zpos a) / IZR (Zpos b))) /\ finite (div_to_f64 s a b) = true /\ Bsign (div_to_f64 s a b) = s.
Proof.
  intros Hr. unfold div_to_f64. pose proof (proj2 (Bdiv_correct_aux 53 1024 eq_refl eq_refl mode_NE s a 0 false b 0)) as Hc. cbv zeta in Hc.
  assert (E : F2R (Float radix2 (cond_Zopp s (Zpos a)) 0) / F2R (Float radix2 (cond_Zopp false (Zpos b)) 0) = signed s (IZR (Zpos a) / IZR (Zpos b))).
  { unfold F2R. cbn [Fnum Fexp cond_Zopp]. change (bpow radix2 0) with 1. rewrite !Rmult_1_r.
    destruct s; cbn [cond_Zopp signed]; [rewrite opp_IZR; field|reflexivity]. apply IZR_neq. lia. }
  rewrite E in Hc. simpl round_mode in Hc. rewrite Rlt_bool_true in Hc by exact Hr. destruct Hc as (H1 & H2 & H3).
  rewrite val_SF2B, is_finite_SF2B, Bsign_SF2B, xorb_false_r in *. auto.
Qed.
Lemma dec_to_f64_ok s m e : (0 <= m)%Z -> Rabs (rnd64 (signed s (IZR m * ten e))) < bpow radix2 1024 ->
  val (dec_to_f64 s m e) = rnd64 (signed s (IZR m * ten e)) /\ finite (dec_to_f64 s m e) = true /\ Bsign (dec_to_f64 s m e) = s.
Proof.
  intros Hm. destruct m as [|p|p]; [| |lia].
  - intros _. simpl. rewrite Rmult_0_l. replace (signed s 0) with 0 by (destruct s; simpl; lra). rewrite rnd_0. auto.
  - cbn [dec_to_f64]. destruct (Z.ltb_spec e 0) as [He|He].
    + assert (Ep : (0 < 10 ^ (- e))%Z) by (apply Z.pow_pos_nonneg; lia).
      assert (E : IZR (Zpos p) * ten e = IZR (Zpos p) / IZR (Zpos (Z.to_pos (10 ^ (- e))))).
      { rewrite Z2Pos.id by auto. rewrite <- ten_Z by lia. unfold ten, Rdiv. rewrite <- bpow_opp, Z.opp_involutive. reflexivity. }
      rewrite E. apply div_to_f64_ok.
    + assert (Ep : (0 < 10 ^ e)%Z) by (apply Z.pow_pos_nonneg; lia).
      assert (E : IZR (Zpos p) * ten e = IZR (Zpos (Z.to_pos (Zpos p * 10 ^ e))) / 1).
      { rewrite Z2Pos.id by lia. rewrite mult_IZR, ten_Z by lia. lra. }
      rewrite E. apply div_to_f64_ok.
Qed.
Lemma in_range m e s : (0 <= m)%Z -> Rabs (rnd64 (signed s (IZR m * ten e))) < bpow radix2 1024 ->
  (m <> 0%Z -> bpow radix2 (-1022) <= IZR m * ten e) -> out_of_range m e (dec_to_f64 s m e) = false.
Proof.
  intros Hm Hr Hl. destruct (dec_to_f64_ok s m e Hm Hr) as (Hv & Hf & _).
  assert (Hlow : m <> 0%Z -> bpow radix2 (-1022) <= Rabs (val (dec_to_f64 s m e))).
  { intros N. specialize (Hl N). rewrite Hv. apply abs_round_ge_generic; [apply valid64|apply valid_rnd_N| |].
    - apply generic_format_bpow. unfold SpecFloat.fexp, SpecFloat.emin. lia.
    - rewrite signed_abs, Rabs_pos_eq; auto. pose proof (bpow_ge_0 radix2 (-1022)). lra. }
  destruct (Z.eq_dec m 0) as [->|N].
  - reflexivity.
  - specialize (Hlow N). pose proof (bpow_gt_0 radix2 (-1022)) as Hb.
    destruct (dec_to_f64 s m e) as [s0|s0| |s0 mx ex B]; try discriminate.
    + simpl in Hlow. rewrite Rabs_R0 in Hlow. lra.
    + cbn [out_of_range]. destruct (Z.ltb_spec (Zpos mx) (2 ^ 52)) as [H52|H52]; [|reflexivity]. exfalso.
      unfold B2R in Hlow. rewrite <- F2R_Zabs, abs_cond_Zopp in Hlow. cbn [Z.abs] in Hlow.
      assert (Ee : ex = (-1074)%Z).
      { clear Hv Hf Hlow. unfold SpecFloat.bounded, SpecFloat.canonical_mantissa in B. apply andb_prop in B as (B & _). apply Zeq_bool_eq in B.
        unfold SpecFloat.fexp, SpecFloat.emin in B.
        rewrite Digits.Zpos_digits2_pos in B. pose proof (Digits.Zdigits_le_Zpower radix2 52 (Zpos mx)) as Hd.
        assert (Digits.Zdigits radix2 (Zpos mx) <= 52)%Z by (apply Hd; simpl Z.abs; simpl; lia). lia. }
      subst ex. assert (F2R (Float radix2 (Zpos mx) (-1074)) < bpow radix2 (-1022)); [|lra].
      change (-1022)%Z with (52 + -1074)%Z. rewrite bpow_plus. unfold F2R. cbn [Fnum Fexp].
      apply Rmult_lt_compat_r; [apply bpow_gt_0|]. change (bpow radix2 52) with (IZR (2 ^ 52)). apply IZR_lt. exact H52.
Qed.

(** a decimal number as text, and its sign and value: white space, sign, digits with or without a
    point, an exponent or none, then anything that is not part of the number *)
Inductive sign_text : str -> bool -> Prop :=
| sign_none : sign_text [] false
| sign_plus : sign_text (lit "+") false
| sign_minus : sign_text (lit "-") true.
Inductive mantissa_text : str -> Z -> Z -> Prop :=   (* the value is m 10^e *)
| mantissa_int ds : ds <> [] -> Forall is_digit ds -> mantissa_text (chars ds) (number ds) 0
| mantissa_frac ds fs : ds ++ fs <> [] -> Forall is_digit ds -> Forall is_digit fs ->
    mantissa_text (chars ds ++ lit "." ++ chars fs) (number (ds ++ fs)) (- Z.of_nat (List.length fs)).
Inductive exponent_text : str -> Z -> Prop :=
| exponent_none : exponent_text [] 0
| exponent_some c st (sg : bool) ds : c = "e"%char \/ c = "E"%char -> sign_text st sg -> ds <> [] -> Forall is_digit ds ->
    exponent_text (c :: st ++ chars ds) (if sg then - number ds else number ds).
(** nothing, or a character that cannot continue a number (an x after a leading 0 would make it hexadecimal) *)
Definition ends_number (s : str) : Prop :=
  match s with c :: _ => ~ In c (lit "0123456789.eExX") | [] => True end.
(** what isspace accepts in the "C" locale: blank, tab, line feed, vertical tab, form feed, carriage return *)
Definition white_space (c : ascii) : Prop := In c (map ascii_of_nat [32; 9; 10; 11; 12; 13]%nat).
Inductive decimal_text : str -> bool -> R -> Prop :=
| decimal_intro sp st sg mt m em et ee tl : Forall white_space sp ->
    sign_text st sg -> mantissa_text mt m em -> exponent_text et ee -> ends_number tl ->
    decimal_text (sp ++ st ++ mt ++ et ++ tl) sg (IZR m * ten (em + ee)).

Lemma white_is_space c : white_space c -> is_space c = true.
Proof. intros H. simpl in H. repeat destruct H as [<-|H]; try reflexivity. destruct H. Qed.
Lemma skip_spaces_app sp s : Forall white_space sp -> skip_spaces (sp ++ s) = skip_spaces s.
Proof. induction 1 as [|c sp H _ IH]; simpl; [reflexivity|]. rewrite (white_is_space c H). exact IH. Qed.
Lemma ends_facts c s : ends_number (c :: s) -> digit c = None /\ c <> "."%char /\ c <> "e"%char /\ c <> "E"%char.
Proof.
  intros H. split; [|repeat split; intros ->; apply H; simpl; tauto].
  destruct (digit c) as [d|] eqn:E; [|reflexivity]. exfalso. apply H. clear H.
  destruct c as [b0 b1 b2 b3 b4 b5 b6 b7]. destruct b0, b1, b2, b3, b4, b5, b6, b7; try discriminate E; simpl; tauto.
Qed.
Definition plain (s : str) : Prop :=   (* starts with a digit or a point *)
  match s with c :: _ => digit c <> None \/ c = "."%char | [] => False end.
Lemma plain_facts c s : digit c <> None \/ c = "."%char -> is_space c = false /\ c <> "-"%char /\ c <> "+"%char
  /\ starts (lit "inf") (c :: s) = false /\ starts (lit "nan") (c :: s) = false.
Proof.
  intros H. assert (D : is_space c = false /\ Ascii.eqb c "-" = false /\ Ascii.eqb c "+" = false /\ Ascii.eqb "i" (lower c) = false /\ Ascii.eqb "n" (lower c) = false).
  { destruct c as [b0 b1 b2 b3 b4 b5 b6 b7]. destruct H as [H|H]; [|rewrite H; repeat split; reflexivity].
    destruct b0, b1, b2, b3, b4, b5, b6, b7; try (exfalso; apply H; reflexivity); repeat split; reflexivity. }
  destruct D as (D1 & D2 & D3 & D4 & D5). split; auto. split; [intros ->; discriminate|]. split; [intros ->; discriminate|].
  cbn [lit list_ascii_of_string starts]. rewrite D4, D5. auto.
Qed.
Lemma digit_char_plain n : is_digit n -> digit (digit_symbol n) <> None.
Proof. intros H. rewrite digit_char_ok; auto. discriminate. Qed.
Lemma mantissa_plain mt m em r : mantissa_text mt m em -> plain (mt ++ r).
Proof.
  intros [ds Hn Hd|ds fs Hn Hd Hf].
  - destruct ds as [|d ds]; [congruence|]. left. apply digit_char_plain. inversion Hd; auto.
  - destruct ds as [|d ds]; [right; reflexivity|]. left. apply digit_char_plain. inversion Hd; auto.
Qed.
Lemma mantissa_nonneg mt m em : mantissa_text mt m em -> (0 <= m)%Z.
Proof.
  assert (forall ds a, Forall is_digit ds -> (0 <= a)%Z -> (0 <= fold_left (fun a d => 10 * a + d)%Z ds a)%Z) as H.
  { induction ds as [|d ds IH]; intros a H1 H2; cbn [fold_left]; auto. inversion H1 as [|? ? Hd]; subst. unfold is_digit in Hd. apply IH; auto. lia. }
  intros [ds _ Hd|ds fs _ Hd Hf]; apply H; try lia; auto. apply Forall_app; auto.
Qed.
Lemma read_sign_plain s : plain s -> read_sign s = (false, s).
Proof.
  destruct s as [|c s]; [intros []|]. intros H. destruct (plain_facts c s H) as (_ & H1 & H2 & _). simpl.
  destruct (Ascii.eqb_spec c "-"); [congruence|]. destruct (Ascii.eqb_spec c "+"); [congruence|]. reflexivity.
Qed.
Lemma read_sign_text st sg s : sign_text st sg -> plain s -> read_sign (st ++ s) = (sg, s).
Proof. intros [] H; [apply read_sign_plain; auto|reflexivity|reflexivity]. Qed.
Lemma skip_plain s : plain s -> skip_spaces s = s.
Proof. destruct s as [|c s]; [intros []|]. intros H. destruct (plain_facts c s H) as (H1 & _). simpl. rewrite H1. reflexivity. Qed.
Lemma read_exp_text et ee tl : exponent_text et ee -> ends_number tl -> read_exp (et ++ tl) = ee.
Proof.
  intros [|c st sg ds Hc Hs Hn Hd] Ht.
  - destruct tl as [|c tl]; [reflexivity|]. destruct (ends_facts _ _ Ht) as (_ & _ & H1 & H2). simpl.
    destruct (Ascii.eqb_spec c "e"); [congruence|]. destruct (Ascii.eqb_spec c "E"); [congruence|]. reflexivity.
  - rewrite <- app_comm_cons. cbn [read_exp].
    replace (Ascii.eqb c "e" || Ascii.eqb c "E")%bool with true by (destruct Hc as [-> | ->]; reflexivity).
    rewrite <- app_assoc, (read_sign_text st sg); auto.
    + rewrite read_digits_chars; auto.
      * replace (0 + Z.of_nat (List.length ds) =? 0)%Z with false; [destruct sg; reflexivity|].
        symmetry. apply Z.eqb_neq. destruct ds; [congruence|]. simpl. lia.
      * destruct tl as [|c' tl]; simpl; auto. destruct (ends_facts _ _ Ht). auto.
    + destruct ds as [|d ds]; [congruence|]. left. apply digit_char_plain. inversion Hd; auto.
Qed.
Lemma rest_no_digit et ee tl : exponent_text et ee -> ends_number tl ->
  no_digit (et ++ tl) /\ forall c s, et ++ tl = c :: s -> Ascii.eqb c "." = false.
Proof.
  intros [|c st sg ds Hc _ _ _] Ht.
  - destruct tl as [|c tl]; [simpl; split; auto; intros; discriminate|]. destruct (ends_facts _ _ Ht) as (H1 & H2 & _). split; auto.
    intros c' s [= <- <-]. destruct (Ascii.eqb_spec c "."); congruence.
  - split; [destruct Hc as [-> | ->]; reflexivity|]. intros c' s [= <- _]. destruct Hc as [-> | ->]; reflexivity.
Qed.
Lemma stod_text s sg x : decimal_text s sg x -> exists m e, (0 <= m)%Z /\ x = IZR m * ten e /\
  stod s = (if out_of_range m e (dec_to_f64 sg m e) then OutOfRange else Num (dec_to_f64 sg m e)).
Proof.
  intros [sp st sg0 mt m em et ee tl Hsp Hst Hmt Het Htl]. clear s sg x. rename sg0 into sg.
  set (mr := mt ++ et ++ tl). assert (Hp : plain mr) by (apply (mantissa_plain mt m em); auto).
  assert (Hm0 : (0 <= m)%Z) by (eapply mantissa_nonneg; eauto).
  exists m, (em + ee)%Z. split; auto. split; auto.
  unfold stod. rewrite skip_spaces_app by auto.
  assert (Es : skip_spaces (st ++ mr) = st ++ mr).
  { destruct Hst; [apply skip_plain; auto|reflexivity|reflexivity]. }
  rewrite Es, (read_sign_text st sg) by auto.
  assert (Ei : starts (lit "inf") mr = false /\ starts (lit "nan") mr = false).
  { destruct mr as [|c r]; [destruct Hp|]. destruct (plain_facts c r Hp) as (_ & _ & _ & ? & ?). auto. }
  destruct Ei as (-> & ->). unfold mr. clear Es Hp mr. destruct (rest_no_digit et ee tl Het Htl) as (Hn & Hdot).
  destruct Hmt as [ds Hne Hd|ds fs Hne Hd Hf].
  - rewrite read_digits_chars by auto. fold (number ds).
    cbv beta iota. pose proof (read_exp_text et ee tl Het Htl) as Hx.
    destruct (et ++ tl) as [|c s]; [|rewrite (Hdot c s eq_refl)]; cbv beta iota;
      (replace (0 + Z.of_nat (List.length ds) + 0 =? 0)%Z with false; [|symmetry; apply Z.eqb_neq; destruct ds; [congruence|]; simpl; lia]);
      rewrite Hx; replace (ee - 0)%Z with (0 + ee)%Z by lia; reflexivity.
  - rewrite <- !app_assoc. rewrite read_digits_chars; auto; [|reflexivity]. fold (number ds). cbn [lit list_ascii_of_string app].
    rewrite Ascii.eqb_refl, read_digits_chars by auto. rewrite horner_app.
    replace (0 + Z.of_nat (List.length ds) + (0 + Z.of_nat (List.length fs)) =? 0)%Z with false.
    2:{ symmetry. apply Z.eqb_neq. destruct ds; [destruct fs; [simpl in Hne; congruence|]|]; cbn [List.length]; lia. }
    rewrite (read_exp_text et ee) by auto.
    replace (ee - (0 + Z.of_nat (List.length fs)))%Z with (- Z.of_nat (List.length fs) + ee)%Z by lia. reflexivity.
Qed.
(** a decimal number in the range of double is read as the nearest double *)
Theorem C98_number s sg x : decimal_text s sg x ->
  Rabs (rnd64 (signed sg x)) < bpow radix2 1024 -> (x <> 0 -> bpow radix2 (-1022) <= x) ->
  exists y, stod s = Num y /\ finite y = true /\ val y = rnd64 (signed sg x) /\ Bsign y = sg.
Proof.
  intros Ht Hr Hl. destruct (stod_text s sg x Ht) as (m & e & Hm0 & -> & ->).
  exists (dec_to_f64 sg m e). destruct (dec_to_f64_ok sg m e Hm0 Hr) as (H1 & H2 & H3).
  rewrite (in_range m e sg Hm0 Hr); auto.
  intros N. apply Hl. apply Rmult_integral_contrapositive_currified; [apply IZR_neq; auto|].
  pose proof (ten_pos e). lra.
Qed.

Lemma div_to_f64_inf s a b : bpow radix2 1024 <= Rabs (rnd64 (signed s (IZR (Zpos a) / IZR (Zpos b)))) ->
  exists s', div_to_f64 s a b = B754_infinity s'.
Proof.
  intros Hr. unfold div_to_f64. pose proof (proj2 (Bdiv_correct_aux 53 1024 eq_refl eq_refl mode_NE s a 0 false b 0)) as Hc. cbv zeta in Hc.
  assert (E : F2R (Float radix2 (cond_Zopp s (Zpos a)) 0) / F2R (Float radix2 (cond_Zopp false (Zpos b)) 0) = signed s (IZR (Zpos a) / IZR (Zpos b))).
  { unfold F2R. cbn [Fnum Fexp cond_Zopp]. change (bpow radix2 0) with 1. rewrite !Rmult_1_r.
    destruct s; cbn [cond_Zopp signed]; [rewrite opp_IZR; field|reflexivity]. apply IZR_neq. lia. }
  rewrite E in Hc. simpl round_mode in Hc. rewrite Rlt_bool_false in Hc by exact Hr.
  exists (xorb s false). apply B2SF_inj. rewrite B2SF_SF2B. exact Hc.
Qed.
Lemma dec_to_f64_inf s m e : (0 <= m)%Z -> bpow radix2 1024 <= Rabs (rnd64 (signed s (IZR m * ten e))) ->
  exists s', dec_to_f64 s m e = B754_infinity s'.
Proof.
  intros Hm. destruct m as [|p|p]; [| |lia].
  - rewrite Rmult_0_l. replace (signed s 0) with 0 by (destruct s; simpl; lra). rewrite rnd_0, Rabs_R0.
    pose proof (bpow_gt_0 radix2 1024). lra.
  - cbn [dec_to_f64]. destruct (Z.ltb_spec e 0) as [He|He].
    + assert (Ep : (0 < 10 ^ (- e))%Z) by (apply Z.pow_pos_nonneg; lia).
      assert (E : IZR (Zpos p) * ten e = IZR (Zpos p) / IZR (Zpos (Z.to_pos (10 ^ (- e))))).
      { rewrite Z2Pos.id by auto. rewrite <- ten_Z by lia. unfold ten, Rdiv. rewrite <- bpow_opp, Z.opp_involutive. reflexivity. }
      rewrite E. apply div_to_f64_inf.
    + assert (Ep : (0 < 10 ^ e)%Z) by (apply Z.pow_pos_nonneg; lia).
      assert (E : IZR (Zpos p) * ten e = IZR (Zpos (Z.to_pos (Zpos p * 10 ^ e))) / 1).
      { rewrite Z2Pos.id by lia. rewrite mult_IZR, ten_Z by lia. lra. }
      rewrite E. apply div_to_f64_inf.
Qed.
(** a finite double with a mantissa of fewer than 53 bits is a subnormal number *)
Lemma small_mantissa mx ex : SpecFloat.bounded 53 1024 mx ex = true -> (Zpos mx < 2 ^ 52)%Z -> ex = (-1074)%Z.
Proof.
  intros B H52. unfold SpecFloat.bounded, SpecFloat.canonical_mantissa in B. apply andb_prop in B as (B & _). apply Zeq_bool_eq in B.
  unfold SpecFloat.fexp, SpecFloat.emin in B.
  rewrite Digits.Zpos_digits2_pos in B. pose proof (Digits.Zdigits_le_Zpower radix2 52 (Zpos mx)) as Hd.
  assert (Digits.Zdigits radix2 (Zpos mx) <= 52)%Z by (apply Hd; simpl Z.abs; simpl; lia). lia.
Qed.
Lemma mantissa_size mx ex : SpecFloat.bounded 53 1024 mx ex = true ->
  (Zpos mx < 2 ^ 52)%Z <-> F2R (Float radix2 (Zpos mx) ex) < bpow radix2 (-1022).
Proof.
  intros B. split; intros H.
  - rewrite (small_mantissa mx ex B H). change (-1022)%Z with (52 + -1074)%Z. rewrite bpow_plus. unfold F2R. cbn [Fnum Fexp].
    apply Rmult_lt_compat_r; [apply bpow_gt_0|]. change (bpow radix2 52) with (IZR (2 ^ 52)). apply IZR_lt. exact H.
  - apply Z.nle_gt. intros H52. apply (Rlt_irrefl (bpow radix2 (-1022))). eapply Rle_lt_trans; [|exact H].
    change (-1022)%Z with (52 + -1074)%Z. rewrite bpow_plus. unfold F2R. cbn [Fnum Fexp].
    apply Rmult_le_compat; [apply bpow_ge_0|apply bpow_ge_0|change (bpow radix2 52) with (IZR (2 ^ 52)); apply IZR_le; exact H52|].
    apply bpow_le. unfold SpecFloat.bounded, SpecFloat.canonical_mantissa in B. apply andb_prop in B as (B & _). apply Zeq_bool_eq in B.
    unfold SpecFloat.fexp, SpecFloat.emin in B. lia.
Qed.
(** the test for exactness compares m 10^e and mx 2^ex *)
Lemma exact_test m e mx : 
  (if (e <? 0)%Z then (m * 2 ^ (- -1074) =? Zpos mx * 10 ^ (- e))%Z else (m * 10 ^ e * 2 ^ (- -1074) =? Zpos mx)%Z) = true <->
  IZR m * ten e = F2R (Float radix2 (Zpos mx) (-1074)).
Proof.
  assert (H2 : 0 < bpow radix2 1074) by apply bpow_gt_0.
  assert (E2 : bpow radix2 1074 = IZR (2 ^ (- -1074))) by (rewrite <- (IZR_Zpower radix2) by lia; reflexivity).
  unfold F2R. cbn [Fnum Fexp]. change (-1074)%Z with (Z.opp 1074) at 3. rewrite bpow_opp.
  assert (G : forall a b, a * bpow radix2 1074 = b <-> a = b * / bpow radix2 1074).
  { intros a b. split; [intros <-|intros ->]; field; lra. }
  destruct (Z.ltb_spec e 0) as [He|He]; rewrite Z.eqb_eq.
  - rewrite <- G, E2. assert (H10 : 0 < ten (- e)) by apply ten_pos.
    assert (E10 : ten e * ten (- e) = 1) by (unfold ten; rewrite <- bpow_plus, Z.add_opp_diag_r; reflexivity).
    assert (E10' : ten (- e) = IZR (10 ^ (- e))) by (apply ten_Z; lia).
    set (P := IZR (2 ^ (- -1074))).
    split; intros H.
    + apply (f_equal IZR) in H. rewrite !mult_IZR, <- E10' in H. fold P in H.
      transitivity (IZR m * P * ten e); [ring|]. rewrite H. transitivity (IZR (Zpos mx) * (ten e * ten (- e))); [ring|]. rewrite E10. ring.
    + apply eq_IZR. rewrite !mult_IZR, <- E10'. fold P. rewrite <- H.
      transitivity (IZR m * P * (ten e * ten (- e))); [rewrite E10; ring|ring].
  - rewrite <- G, E2. rewrite ten_Z by lia. split; intros H.
    + apply (f_equal IZR) in H. rewrite !mult_IZR in H. exact H.
    + apply eq_IZR. rewrite !mult_IZR. exact H.
Qed.
(** when std::stod throws std::out_of_range: the number is too large, or it is not exact and smaller
    than every normal number *)
Definition beyond_double (sg : bool) (x : R) : Prop :=
  bpow radix2 1024 <= Rabs (rnd64 (signed sg x)) \/
  (Rabs (rnd64 (signed sg x)) < bpow radix2 (-1022) /\ rnd64 (signed sg x) <> signed sg x).
Lemma out_of_range_ok sg m e : (0 <= m)%Z -> out_of_range m e (dec_to_f64 sg m e) = true <-> beyond_double sg (IZR m * ten e).
Proof.
  intros Hm. set (x := IZR m * ten e). unfold beyond_double.
  destruct (Rle_or_lt (bpow radix2 1024) (Rabs (rnd64 (signed sg x)))) as [Ho|Ho].
  - destruct (dec_to_f64_inf sg m e Hm Ho) as (s' & ->). split; auto.
  - destruct (dec_to_f64_ok sg m e Hm Ho) as (Hv & Hf & Hs). fold x in Hv. rewrite <- Hv in *.
    assert (Hi : val (dec_to_f64 sg m e) <> signed sg x <-> Rabs (val (dec_to_f64 sg m e)) <> x).
    { assert (Hx : 0 <= x) by (unfold x; apply Rmult_le_pos; [apply IZR_le; auto|pose proof (ten_pos e); lra]).
      assert (Hsg : val (dec_to_f64 sg m e) = signed sg (Rabs (val (dec_to_f64 sg m e)))).
      { rewrite Hv. replace (Rabs (rnd64 (signed sg x))) with (rnd64 x).
        - destruct sg; cbn [signed]; [apply round_NE_opp|reflexivity].
        - assert (0 <= rnd64 x) by (rewrite <- rnd_0; apply round_le; [apply valid64|apply valid_rnd_N|exact Hx]).
          destruct sg; cbn [signed]; [replace (rnd64 (- x)) with (- rnd64 x) by (symmetry; apply round_NE_opp); rewrite Rabs_Ropp|]; rewrite Rabs_pos_eq; auto. }
      split; intros H1 H2; apply H1; [rewrite Hsg, H2; reflexivity|rewrite H2, signed_abs, Rabs_pos_eq; auto]. }
    rewrite Hi. clear Hi.
    assert (Hz : m = 0%Z <-> 0 = x).
    { unfold x. pose proof (ten_pos e) as Hp. split; [intros ->; ring|]. intros E. symmetry in E. apply Rmult_integral in E as [E|E]; [|lra]. apply eq_IZR in E. exact E. }
    pose proof (bpow_gt_0 radix2 (-1022)) as Hb.
    destruct (dec_to_f64 sg m e) as [s0|s0| |s0 mx ex B]; try discriminate.
    + cbn [out_of_range]. cbn [B2R] in *. rewrite Rabs_R0 in *. rewrite <- Hz. destruct (Z.eqb_spec m 0) as [E|E]; cbn [negb]; split; auto; try discriminate.
      intros [H|(_ & H)]; [lra|tauto].
    + cbn [out_of_range]. assert (Ha : Rabs (val (B754_finite s0 mx ex B)) = F2R (Float radix2 (Zpos mx) ex)).
      { unfold B2R. rewrite <- F2R_Zabs, abs_cond_Zopp. reflexivity. }
      rewrite Ha in *. pose proof (mantissa_size mx ex B) as Hms. rewrite <- Hms.
      destruct (Z.ltb_spec (Zpos mx) (2 ^ 52)) as [H52|H52]; cbn [andb].
      * pose proof (small_mantissa mx ex B H52) as ->. pose proof (exact_test m e mx) as Hx. fold x in Hx.
        destruct (if (e <? 0)%Z then _ else _); cbn [negb].
        -- split; [discriminate|]. intros [H|(_ & H)]; [lra|]. exfalso. apply H. symmetry. apply Hx. reflexivity.
        -- split; [|reflexivity]. intros _. right. split; auto. intros E. symmetry in E. apply Hx in E. discriminate.
      * split; [discriminate|]. intros [H|(H & _)]; [lra|lia].
Qed.
(** C98: which decimal numbers are read, and as what, and which ones make std::stod throw *)
Theorem C98_range s sg x : decimal_text s sg x ->
  (beyond_double sg x -> stod s = OutOfRange) /\
  (~ beyond_double sg x -> exists y, stod s = Num y /\ finite y = true /\ val y = rnd64 (signed sg x) /\ Bsign y = sg).
Proof.
  intros Ht. destruct (stod_text s sg x Ht) as (m & e & Hm0 & -> & ->).
  pose proof (out_of_range_ok sg m e Hm0) as Ho. split; intros H.
  - apply Ho in H. rewrite H. reflexivity.
  - destruct (out_of_range m e (dec_to_f64 sg m e)) eqn:E; [exfalso; apply H, Ho; reflexivity|].
    exists (dec_to_f64 sg m e). split; auto.
    assert (Hr : Rabs (rnd64 (signed sg (IZR m * ten e))) < bpow radix2 1024) by (apply Rnot_le_lt; intros H'; apply H; left; exact H').
    destruct (dec_to_f64_ok sg m e Hm0 Hr) as (H1 & H2 & H3). auto.
Qed.
(** a text that does not start with a number: after white space and a sign comes no digit, no point
    with a digit after it, and neither inf nor nan *)
Definition no_number (s : str) : Prop :=
  match s with
  | [] => True
  | c :: s' => no_digit s /\ (c = "."%char -> no_digit s') /\ ~ In c (lit "iInN")
  end.
Lemma no_number_starts s : no_number s -> starts (lit "inf") s = false /\ starts (lit "nan") s = false.
Proof.
  destruct s as [|c s]; [split; reflexivity|]. intros (_ & _ & H). cbn [lit list_ascii_of_string starts].
  assert (Ascii.eqb "i" (lower c) = false /\ Ascii.eqb "n" (lower c) = false) as (-> & ->); [|split; reflexivity].
  destruct c as [b0 b1 b2 b3 b4 b5 b6 b7].
  destruct b0, b1, b2, b3, b4, b5, b6, b7; (split; [reflexivity|reflexivity]) || (exfalso; apply H; simpl; tauto).
Qed.
Theorem C98_no_number sp st sg s : Forall white_space sp -> sign_text st sg -> no_number s ->
  (st = [] -> match s with c :: _ => ~ white_space c /\ c <> "+"%char /\ c <> "-"%char | [] => True end) ->
  stod (sp ++ st ++ s) = InvalidArgument.
Proof.
  intros Hsp Hst Hn Hs. unfold stod. rewrite skip_spaces_app by auto.
  assert (E : read_sign (skip_spaces (st ++ s)) = (sg, s)).
  { destruct Hst; [|reflexivity|reflexivity]. specialize (Hs eq_refl). cbn [app]. destruct s as [|c s]; [reflexivity|].
    destruct Hs as (H1 & H2 & H3). cbn [skip_spaces].
    replace (is_space c) with false.
    - cbn [read_sign]. destruct (Ascii.eqb_spec c "-"); [congruence|]. destruct (Ascii.eqb_spec c "+"); [congruence|]. reflexivity.
    - symmetry. destruct (is_space c) eqn:E; [|reflexivity]. exfalso. apply H1. clear -E. unfold white_space.
      destruct c as [b0 b1 b2 b3 b4 b5 b6 b7]. destruct b0, b1, b2, b3, b4, b5, b6, b7; try discriminate E; simpl; tauto. }
  rewrite E. destruct (no_number_starts s Hn) as (-> & ->). clear E Hs.
  assert (R : forall a k r, no_digit r -> read_digits a k r = (a, k, r)).
  { intros a k [|c r]; [reflexivity|]. cbn [no_digit read_digits]. intros ->. reflexivity. }
  destruct s as [|c s]; [reflexivity|]. destruct Hn as (H1 & H2 & _). rewrite R by auto.
  destruct (Ascii.eqb_spec c "."); [rewrite R by auto|]; reflexivity.
Qed.

(** ** Files *)

(** a row of fields and the numbers in its columns [idx] *)
Definition has_numbers (idx : list nat) (fields : list str) (r : list f64) : Prop :=
  Forall2 (fun i x => exists f, nth_error fields i = Some f /\ stod f = Num x) idx r.
Lemma read_row_ok fields idx r : has_numbers idx fields r -> read_row fields idx = Row r.
Proof.
  induction 1 as [|i x idx r (f & E1 & E2) _ IH]; [reflexivity|]. simpl. rewrite E1, E2, IH. reflexivity.
Qed.
(** a line with its fields *)
Definition csv_line (line : str) (fields : list str) : Prop := separated comma line fields /\ fields <> [].
Lemma load_good idx : forall lines rows nums rest data,
  Forall2 csv_line lines rows -> Forall2 (has_numbers idx) rows nums ->
  load_lines (lines ++ rest) idx data = load_lines rest idx (data ++ nums).
Proof.
  induction lines as [|l lines IH]; intros rows nums rest data H1 H2.
  - inversion H1; subst. inversion H2; subst. rewrite app_nil_r. reflexivity.
  - inversion H1 as [|? f ? rows' (Hs & Hn) Hr]; subst. inversion H2 as [|? r ? nums' Hx Hy]; subst.
    cbn [app load_lines]. rewrite (getlines_sep _ _ _ Hs). destruct f as [|f0 f]; [congruence|].
    rewrite (read_row_ok _ _ _ Hx). rewrite (IH rows' nums'); auto. rewrite <- app_assoc. reflexivity.
Qed.
(** the file's text, with a first line that is skipped or without one *)
Definition file_text (skip_header : bool) (s : str) (lines : list str) : Prop :=
  if skip_header then exists header, separated newline s (header :: lines) else separated newline s lines.
Lemma file_lines skip s lines idx data : file_text skip s lines -> loadCsvFields (Some s) skip idx data = load_lines lines idx data.
Proof.
  unfold loadCsvFields. destruct skip; simpl; [|intros H; rewrite (getlines_sep _ _ _ H); reflexivity]. intros (h & Hs). apply getlines_sep in Hs.
  destruct s as [|c s]; [discriminate Hs|]. cbn [List.length getlines getline] in Hs.
  pose proof (until_len1 newline c s) as Hl. cbn [getline]. destruct (until newline (c :: s)) as [l r]. cbn [snd] in Hl.
  injection Hs as _ Hs. rewrite getlines_fuel in Hs by exact Hl. rewrite Hs. reflexivity.
Qed.

(** C98: the numbers in the requested columns of all lines, after what was in the vector before *)
Theorem C98_load skip s lines rows nums idx data : file_text skip s lines ->
  Forall2 csv_line lines rows -> Forall2 (has_numbers idx) rows nums ->
  loadCsvFields (Some s) skip idx data = Loaded (data ++ nums).
Proof.
  intros Hf H1 H2. rewrite (file_lines skip s lines) by auto.
  rewrite <- (app_nil_r lines), (load_good idx lines rows nums) by auto. reflexivity.
Qed.
(** C98: a line that is empty or has no such column ends the call with false; the rows before it
    are in the vector *)
Theorem C98_refused skip s lines bad rest rows nums idx data : file_text skip s (lines ++ bad :: rest) ->
  Forall2 csv_line lines rows -> Forall2 (has_numbers idx) rows nums ->
  bad = [] \/ (exists i0 i1 i2 fields r, csv_line bad fields /\ idx = i0 ++ i1 :: i2 /\ has_numbers i0 fields r /\ (List.length fields <= i1)%nat) ->
  loadCsvFields (Some s) skip idx data = Refused (data ++ nums).
Proof.
  intros Hf H1 H2 Hb. rewrite (file_lines skip s _ idx data Hf).
  rewrite (load_good idx lines rows nums) by auto. destruct Hb as [->|(i0 & i1 & i2 & fields & r & (Hs & Hn) & -> & Hr & Hl)]; [reflexivity|].
  cbn [load_lines]. rewrite (getlines_sep _ _ _ Hs). destruct fields as [|f0 f]; [congruence|]. set (fs := f0 :: f) in *.
  replace (read_row fs (i0 ++ i1 :: i2)) with NoField; [reflexivity|].
  clear Hs Hn Hf H1 H2. induction Hr as [|i x i0 r (g & E1 & E2) _ IH]; cbn [app read_row].
  - apply nth_error_None in Hl. rewrite Hl. reflexivity.
  - rewrite E1, E2. rewrite <- IH. reflexivity.
Qed.
(** C98: a field in a requested column that is no number, or none in the range of double, makes the
    call throw; the rows before it are in the vector *)
Theorem C98_throws skip s lines bad rest rows nums idx data i0 i1 i2 fields r f : file_text skip s (lines ++ bad :: rest) ->
  Forall2 csv_line lines rows -> Forall2 (has_numbers idx) rows nums ->
  csv_line bad fields -> idx = i0 ++ i1 :: i2 -> has_numbers i0 fields r ->
  nth_error fields i1 = Some f -> stod f = InvalidArgument \/ stod f = OutOfRange ->
  loadCsvFields (Some s) skip idx data = Threw (data ++ nums).
Proof.
  intros Hf H1 H2 (Hs & Hn) -> Hr E Hb. rewrite (file_lines skip s _ _ data Hf).
  rewrite (load_good _ lines rows nums) by auto.
  cbn [load_lines]. rewrite (getlines_sep _ _ _ Hs). destruct fields as [|f0 fs0]; [congruence|]. set (fs := f0 :: fs0) in *.
  replace (read_row fs (i0 ++ i1 :: i2)) with RowThrew; [reflexivity|].
  clear Hs Hn Hf H1 H2. induction Hr as [|i x i0 r (g & E1 & E2) _ IH]; cbn [app read_row].
  - rewrite E. destruct Hb as [-> | ->]; reflexivity.
  - rewrite E1, E2. rewrite <- IH. reflexivity.
Qed.
Theorem C98_missing skip idx data : loadCsvFields None skip idx data = Refused data.
Proof. reflexivity. Qed.

(** ** C99: written and read back *)

(** what a number becomes: finite numbers are rounded to a multiple of 10^-6 (in the file) and then to
    the nearest double (when read); infinities and NaN are kept *)
Definition in_millionths (x : R) : R := IZR (ZnearestE (x * 1000000)) / 1000000.
Definition reread (x y : f64) : Prop :=
  match x with
  | B754_nan => y = B754_nan
  | B754_infinity s => y = B754_infinity s
  | _ => finite y = true /\ val y = rnd64 (in_millionths (val x)) /\ Bsign y = Bsign x
  end.

Fixpoint uint_digits (d : Decimal.uint) : list Z :=
  match d with
  | Decimal.Nil => []
  | Decimal.D0 d => 0%Z :: uint_digits d
  | Decimal.D1 d => 1%Z :: uint_digits d
  | Decimal.D2 d => 2%Z :: uint_digits d
  | Decimal.D3 d => 3%Z :: uint_digits d
  | Decimal.D4 d => 4%Z :: uint_digits d
  | Decimal.D5 d => 5%Z :: uint_digits d
  | Decimal.D6 d => 6%Z :: uint_digits d
  | Decimal.D7 d => 7%Z :: uint_digits d
  | Decimal.D8 d => 8%Z :: uint_digits d
  | Decimal.D9 d => 9%Z :: uint_digits d
  end.
Lemma uint_chars_digits d : uint_chars d = chars (uint_digits d) /\ Forall is_digit (uint_digits d).
Proof.
  induction d; simpl; [split; [reflexivity|constructor]|..]; destruct IHd as (IH1 & IH2);
    (split; [rewrite IH1; reflexivity|constructor; [unfold is_digit; lia|exact IH2]]).
Qed.
Lemma uint_acc d : forall p, Zpos (Pos.of_uint_acc d p) = fold_left (fun a d => 10 * a + d)%Z (uint_digits d) (Zpos p).
Proof. induction d; intros p; cbn [Pos.of_uint_acc uint_digits fold_left]; [reflexivity|..]; rewrite IHd; f_equal; lia. Qed.
Lemma uint_number d : Z.of_N (N.of_uint d) = number (uint_digits d).
Proof.
  unfold number, N.of_uint. induction d; cbn [Pos.of_uint uint_digits fold_left]; [reflexivity|..]; try exact IHd;
    cbn [Z.of_N]; rewrite uint_acc; reflexivity.
Qed.
Lemma int_chars_ok n : (0 <= n)%Z -> exists ds, int_chars n = chars ds /\ Forall is_digit ds /\ number ds = n.
Proof.
  intros Hn. exists (uint_digits (N.to_uint (Z.to_N n))). destruct (uint_chars_digits (N.to_uint (Z.to_N n))) as (H1 & H2).
  split; [exact H1|]. split; [exact H2|]. rewrite <- uint_number, Unsigned.of_to, Z2N.id; auto.
Qed.
Lemma six_chars_ok n : (0 <= n)%Z -> exists fs, six_chars n = chars fs /\ Forall is_digit fs /\ List.length fs = 6%nat
  /\ forall a, fold_left (fun a d => 10 * a + d)%Z fs a = (1000000 * a + n mod 1000000)%Z.
Proof.
  intros Hn. exists [n / 100000 mod 10; n / 10000 mod 10; n / 1000 mod 10; n / 100 mod 10; n / 10 mod 10; n mod 10]%Z.
  split; [|split; [|split; [reflexivity|]]].
  - unfold six_chars. assert (forall a, digit_char (a mod 10) = digit_symbol (a mod 10)) as Hd.
    { intros a. apply digit_symbol_char. unfold is_digit. pose proof (Z.mod_pos_bound a 10). lia. }
    cbn [map]. rewrite !Hd. reflexivity.
  - assert (forall a, is_digit (a mod 10)) as Hd by (intros a; unfold is_digit; pose proof (Z.mod_pos_bound a 10); lia).
    repeat constructor; try (apply Z.mod_pos_bound; lia); pose proof (Hd (n / 100000)%Z); pose proof (Hd (n / 10000)%Z);
      pose proof (Hd (n / 1000)%Z); pose proof (Hd (n / 100)%Z); pose proof (Hd (n / 10)%Z); pose proof (Hd n); unfold is_digit in *; lia.
  - intros a. cbn [fold_left]. Z.div_mod_to_equations. lia.
Qed.

Lemma nearest_int n : ZnearestE (IZR n) = n.
Proof. apply (Zrnd_IZR ZnearestE). Qed.
Lemma millionths_ok m e : (0 <= m)%Z -> millionths m e = ZnearestE (IZR m * bpow radix2 e * 1000000).
Proof.
  intros Hm. unfold millionths. destruct (Z.ltb_spec e 0) as [He|He].
  - set (d := (2 ^ (- e))%Z). assert (Hd : (0 < d)%Z) by (apply Z.pow_pos_nonneg; lia).
    set (a := (m * 1000000)%Z).
    assert (Hd' : 0 < IZR d) by (apply IZR_lt; auto).
    assert (E : IZR m * bpow radix2 e * 1000000 = IZR a / IZR d).
    { unfold a, d. rewrite mult_IZR. replace e with (- (- e))%Z at 1 by lia. rewrite bpow_opp.
      rewrite <- (IZR_Zpower radix2) by lia. simpl Z.pow. change (Zpower radix2 (- e)) with (2 ^ (- e))%Z. unfold Rdiv. ring. }
    rewrite E. unfold Znearest. rewrite Zfloor_div by lia.
    assert (Er : IZR a / IZR d - IZR (a / d) = IZR (a mod d) / IZR d).
    { pose proof (Z.div_mod a d) as Hq. assert (Hq' : IZR a = IZR d * IZR (a / d) + IZR (a mod d)) by (rewrite <- mult_IZR, <- plus_IZR; f_equal; lia).
      rewrite Hq'. field. lra. }
    rewrite Er.
    assert (Hc : forall c, Z.compare (2 * (a mod d)) d = c -> Rcompare (IZR (a mod d) / IZR d) (/ 2) = c).
    { intros c <-. replace (/ 2) with ((IZR d / 2) / IZR d) by (field; lra).
      destruct (Z.compare_spec (2 * (a mod d)) d) as [H|H|H].
      - apply Rcompare_Eq. f_equal. apply (f_equal IZR) in H. rewrite mult_IZR in H. lra.
      - apply Rcompare_Lt. apply Rmult_lt_compat_r; [apply Rinv_0_lt_compat; auto|]. apply IZR_lt in H. rewrite mult_IZR in H. lra.
      - apply Rcompare_Gt. apply Rmult_lt_compat_r; [apply Rinv_0_lt_compat; auto|]. apply IZR_lt in H. rewrite mult_IZR in H. lra. }
    assert (Hceil : (2 * (a mod d) >= d)%Z -> Zceil (IZR a / IZR d) = (a / d + 1)%Z).
    { intros H. rewrite Zceil_floor_neq; rewrite Zfloor_div by lia; [reflexivity|].
      intros Heq. assert (IZR (a mod d) / IZR d = 0) as H0 by lra.
      assert (0 < IZR (a mod d) / IZR d); [|lra]. apply Rdiv_lt_0_compat; auto. apply IZR_lt. lia. }
    destruct (Z.compare (2 * (a mod d)) d) eqn:Ec; rewrite (Hc _ eq_refl).
    + apply Z.compare_eq in Ec. destruct (Z.even (a / d)); simpl; [reflexivity|]. rewrite Hceil; lia.
    + reflexivity.
    + apply Z.compare_gt_iff in Ec. rewrite Hceil; lia.
  - replace (IZR m * bpow radix2 e * 1000000) with (IZR (m * 2 ^ e * 1000000)).
    + rewrite nearest_int. reflexivity.
    + rewrite !mult_IZR. rewrite <- (IZR_Zpower radix2) by lia. reflexivity.
Qed.

Lemma ZnearestE_odd x : ZnearestE (- x) = (- ZnearestE x)%Z.
Proof.
  rewrite Znearest_opp. f_equal. unfold Znearest. destruct (Rcompare _ _); auto.
  rewrite negb_involutive, Z.even_opp, Z.even_add. destruct (Z.even (Zfloor x)); reflexivity.
Qed.
Lemma in_millionths_signed s x : in_millionths (signed s x) = signed s (in_millionths x).
Proof.
  destruct s; simpl; [|reflexivity]. unfold in_millionths. replace (- x * 1000000) with (- (x * 1000000)) by ring.
  rewrite ZnearestE_odd, opp_IZR. field.
Qed.
Lemma rnd_signed s x : rnd64 (signed s x) = signed s (rnd64 x).
Proof. destruct s; simpl; [apply round_NE_opp|reflexivity]. Qed.
Lemma millionth_near x : Rabs (in_millionths x - x) <= / 2000000.
Proof.
  unfold in_millionths. pose proof (Znearest_half (fun n => negb (Z.even n)) (x * 1000000)) as H. apply Rabs_le_inv in H. apply Rabs_le. lra.
Qed.
Lemma millionth_nonneg x : 0 <= x -> 0 <= in_millionths x.
Proof.
  intros H. unfold in_millionths. apply Rmult_le_pos; [|lra]. apply IZR_le.
  rewrite <- (nearest_int 0). apply (Zrnd_le ZnearestE). simpl. lra.
Qed.
(** the nearest double of the rounded number is not further from it than the number itself *)
Lemma rnd_nearest z x : fmt64 x -> Rabs (rnd64 z - z) <= Rabs (x - z).
Proof. intros Hx. apply (round_N_pt radix2 fexp64 (fun n => negb (Z.even n)) z). exact Hx. Qed.
Lemma reread_error x : fmt64 x -> Rabs (rnd64 (in_millionths x) - x) <= / 1000000.
Proof.
  intros Hx. pose proof (rnd_nearest (in_millionths x) x Hx) as H1. pose proof (millionth_near x) as H2.
  rewrite (Rabs_minus_sym x) in H1. apply Rabs_le_inv in H2. assert (H3 := Rle_trans _ _ _ H1 (Rabs_le _ _ H2)).
  apply Rabs_le_inv in H3. apply Rabs_le. lra.
Qed.
Definition big : R := bpow radix2 33.
Lemma big_val : big = 8589934592.
Proof. reflexivity. Qed.
Lemma big_grid v : fmt64 v -> big <= v -> exists k, v = IZR k * bpow radix2 (-19).
Proof.
  intros Hf Hv. pose proof (bpow_gt_0 radix2 33) as Hb. fold big in Hb.
  assert (Hc : (-19 <= cexp radix2 fexp64 v)%Z).
  { unfold cexp, SpecFloat.fexp, SpecFloat.emin. assert (34 <= mag radix2 v)%Z; [|lia].
    apply (mag_ge_bpow radix2 v 34). rewrite Rabs_pos_eq by lra. exact Hv. }
  rewrite Hf. unfold F2R. cbn [Fnum Fexp]. set (c := cexp radix2 fexp64 v) in *. set (m := Ztrunc _).
  exists (m * 2 ^ (c + 19))%Z. rewrite mult_IZR, (IZR_Zpower radix2) by lia. rewrite Rmult_assoc, <- bpow_plus. repeat f_equal. lia.
Qed.
Lemma reread_big x : fmt64 x -> big <= x -> rnd64 (in_millionths x) = x.
Proof.
  intros Hf Hx. assert (Hz : big <= in_millionths x).
  { unfold in_millionths. apply Rmult_le_reg_r with 1000000; [lra|]. unfold Rdiv. rewrite Rmult_assoc, Rinv_l, Rmult_1_r by lra.
    rewrite big_val, <- mult_IZR. apply IZR_le. rewrite <- (nearest_int (8589934592 * 1000000)). apply (Zrnd_le ZnearestE).
    rewrite mult_IZR, <- big_val. lra. }
  assert (Hy : big <= rnd64 (in_millionths x)).
  { rewrite <- (rnd_id big); [apply rnd_mono; auto|]. apply fmt_bpow. lia. }
  pose proof (reread_error x Hf) as He.
  destruct (big_grid x Hf Hx) as (k & Ek). destruct (big_grid (rnd64 (in_millionths x))) as (j & Ej); auto.
  { apply generic_format_round; [apply valid64|apply valid_rnd_N]. }
  rewrite Ej, Ek in *. assert (k = j)%Z; [|congruence]. revert He. rewrite <- Rmult_minus_distr_r, <- minus_IZR.
  rewrite Rabs_mult, (Rabs_pos_eq (bpow _ _)) by apply bpow_ge_0. rewrite <- abs_IZR.
  change (bpow radix2 (-19)) with (/ 524288). intros He.
  assert (IZR (Z.abs (j - k)) < 1) by lra. apply lt_IZR in H. lia.
Qed.
Lemma reread_small x : fmt64 x -> 0 <= x < big -> 0 <= rnd64 (in_millionths x) <= big.
Proof.
  intros Hf Hx. split.
  - rewrite <- rnd_0. apply rnd_mono, millionth_nonneg. lra.
  - rewrite <- (rnd_id big); [|apply fmt_bpow; lia]. apply rnd_mono.
    unfold in_millionths. apply Rmult_le_reg_r with 1000000; [lra|]. unfold Rdiv. rewrite Rmult_assoc, Rinv_l, Rmult_1_r by lra.
    rewrite big_val, <- mult_IZR. apply IZR_le. rewrite <- (nearest_int (8589934592 * 1000000)). apply (Zrnd_le ZnearestE).
    rewrite mult_IZR, <- big_val. lra.
Qed.
Lemma reread_range x : fmt64 x -> 0 <= x -> x < bpow radix2 1024 -> Rabs (rnd64 (in_millionths x)) < bpow radix2 1024.
Proof.
  intros Hf Hx Hl. destruct (Rle_or_lt big x) as [Hb|Hb].
  - rewrite reread_big by auto. rewrite Rabs_pos_eq; auto.
  - destruct (reread_small x) as (H1 & H2); auto. rewrite Rabs_pos_eq by auto. eapply Rle_lt_trans; [exact H2|]. apply bpow_lt. lia.
Qed.
(** printing again gives the same millionths *)
Lemma reread_again x : fmt64 x -> 0 <= x -> ZnearestE (rnd64 (in_millionths x) * 1000000) = ZnearestE (x * 1000000).
Proof.
  intros Hf Hx. destruct (Rle_or_lt big x) as [Hb|Hb]; [rewrite reread_big; auto|].
  set (z := in_millionths x). assert (Hz : 0 <= z) by (apply millionth_nonneg; auto).
  assert (Ez : z * 1000000 = IZR (ZnearestE (x * 1000000))) by (unfold z, in_millionths; field).
  assert (Hu : Rabs (rnd64 z - z) < / 2000000).
  { destruct (Rle_or_lt big z) as [Hzb|Hzb].
    - (* z is 2^33 *)
      assert (z = big) as ->; [|rewrite rnd_id by (apply fmt_bpow; lia); rewrite Rminus_diag_eq, Rabs_R0 by reflexivity; lra].
      apply Rle_antisym; auto. apply Rmult_le_reg_r with 1000000; [lra|]. rewrite Ez. rewrite big_val, <- mult_IZR. apply IZR_le.
      rewrite <- (nearest_int (8589934592 * 1000000)). apply (Zrnd_le ZnearestE). rewrite mult_IZR, <- big_val. lra.
    - assert (Hul : ulp radix2 fexp64 z <= / 1048576).
      { change (/ 1048576) with (bpow radix2 (-20)). replace (bpow radix2 (-20)) with (ulp radix2 fexp64 (bpow radix2 32)).
        2:{ rewrite ulp_bpow. reflexivity. }
        destruct (Req_dec z 0) as [->|H0].
        - apply ulp_le; [apply valid64|apply (fexp_monotone 53 1024)|]. rewrite Rabs_R0. apply Rabs_pos.
        - rewrite ulp_neq_0 by exact H0. rewrite ulp_bpow. apply bpow_le. unfold cexp.
          apply (fexp_monotone 53 1024). apply mag_le_bpow; auto. rewrite Rabs_pos_eq by auto. exact Hzb. }
      pose proof (error_le_half_ulp radix2 fexp64 (fun n => negb (Z.even n)) z) as He. lra. }
  apply Znearest_imp. rewrite <- Ez. apply Rabs_def2 in Hu. apply Rabs_def1; lra.
Qed.

(** the sign and the millionths of a finite double *)
Definition mill (x : f64) : Z := ZnearestE (Rabs (val x) * 1000000).
Lemma val_signed x : finite x = true -> val x = signed (Bsign x) (Rabs (val x)).
Proof.
  intros Hf. pose proof (Bsign_le x Hf) as H. destruct (Bsign x); simpl.
  - rewrite Rabs_left1 by auto. ring.
  - rewrite Rabs_pos_eq; auto.
Qed.
Lemma to_string_finite x : finite x = true -> to_string x = sign_chars (Bsign x) ++ fixed_chars (mill x).
Proof.
  destruct x as [s|s| |s m e B]; try discriminate; intros _.
  - simpl to_string. unfold mill. simpl. rewrite Rabs_R0, Rmult_0_l, (nearest_int 0). reflexivity.
  - cbn [to_string Bsign]. rewrite millionths_ok by lia. unfold mill. do 4 f_equal.
    unfold B2R. rewrite <- F2R_Zabs, abs_cond_Zopp. reflexivity.
Qed.
Lemma mill_nonneg x : (0 <= mill x)%Z.
Proof.
  unfold mill. rewrite <- (nearest_int 0). apply (Zrnd_le ZnearestE). pose proof (Rabs_pos (val x)). lra.
Qed.
Lemma sign_chars_text s : sign_text (sign_chars s) s.
Proof. destruct s; constructor. Qed.
Lemma fixed_chars_text n : (0 <= n)%Z -> mantissa_text (fixed_chars n) n (-6).
Proof.
  intros Hn. destruct (int_chars_ok (n / 1000000)) as (ds & E1 & D1 & N1); [apply Z.div_pos; lia|].
  destruct (six_chars_ok n Hn) as (fs & E2 & D2 & L2 & N2).
  unfold fixed_chars. rewrite E1, E2. assert (En : n = number (ds ++ fs)).
  { rewrite <- horner_app, N1, N2. rewrite (Z.div_mod n 1000000) at 1 by lia. reflexivity. }
  rewrite En at 1. replace (-6)%Z with (- Z.of_nat (List.length fs))%Z by (rewrite L2; reflexivity).
  constructor; auto. destruct fs; [discriminate|]. destruct ds; discriminate.
Qed.
Lemma abs_fmt x : fmt64 (Rabs (val x)).
Proof. apply generic_format_abs, fmt_val. Qed.
(** one number *)
Theorem C99_number_partial x : exists y, stod (to_string x) = Num y /\ reread x y.
Proof.
  destruct (finite x) eqn:Hf.
  2:{ destruct x as [s|s| |s m e B]; try discriminate; [exists (B754_infinity s); destruct s|exists B754_nan]; split; reflexivity. }
  assert (Hd : decimal_text (to_string x) (Bsign x) (IZR (mill x) * ten (-6 + 0))).
  { rewrite to_string_finite by auto. rewrite <- (app_nil_r (fixed_chars (mill x))).
    apply (decimal_intro [] (sign_chars (Bsign x)) (Bsign x) (fixed_chars (mill x)) (mill x) (-6) [] 0 []);
      [constructor|apply sign_chars_text|apply fixed_chars_text, mill_nonneg|constructor|exact I]. }
  assert (Em : IZR (mill x) * ten (-6 + 0) = in_millionths (Rabs (val x))) by (unfold mill, in_millionths, ten; reflexivity).
  rewrite Em in Hd.
  assert (Er : rnd64 (signed (Bsign x) (in_millionths (Rabs (val x)))) = rnd64 (in_millionths (val x))).
  { rewrite <- in_millionths_signed, <- val_signed by auto. reflexivity. }
  apply C98_number in Hd.
  - destruct Hd as (y & E & F & V & S). exists y. split; auto. rewrite Er in V. destruct x; try discriminate; simpl; auto.
  - rewrite rnd_signed, signed_abs. apply reread_range; [apply abs_fmt|apply Rabs_pos|apply abs_B2R_lt_emax].
  - intros Hn. rewrite <- Em in *. apply Rle_trans with (1 * ten (-6 + 0)).
    + rewrite Rmult_1_l. unfold ten. simpl (bpow _ (-6 + 0)). apply Rle_trans with (bpow radix2 (-20)).
      * apply bpow_le. lia.
      * simpl bpow. lra.
    + apply Rmult_le_compat_r; [apply Rlt_le, ten_pos|]. apply IZR_le. pose proof (mill_nonneg x).
      assert (mill x <> 0)%Z; [|lia]. intros E0. rewrite E0, Rmult_0_l in Hn. lra.
Qed.

Definition quiet (c : ascii) : Prop := c <> comma /\ c <> newline.
Lemma digit_quiet n : is_digit n -> quiet (digit_symbol n).
Proof.
  intros H. pose proof (digit_char_ok n H) as E. split; intros C; rewrite C in E; discriminate E.
Qed.
Lemma chars_quiet ds : Forall is_digit ds -> Forall quiet (chars ds).
Proof. induction 1; constructor; auto. apply digit_quiet; auto. Qed.
Lemma quiet_lit s : Forall quiet (sign_chars s).
Proof. destruct s; repeat constructor; discriminate. Qed.
Lemma to_string_quiet x : Forall quiet (to_string x) /\ to_string x <> [].
Proof.
  assert (forall n, (0 <= n)%Z -> Forall quiet (fixed_chars n)) as Hq.
  { intros n Hn. destruct (int_chars_ok (n / 1000000)) as (ds & E1 & D1 & _); [apply Z.div_pos; lia|].
    destruct (six_chars_ok n Hn) as (fs & E2 & D2 & _). unfold fixed_chars. rewrite E1, E2.
    apply Forall_app. split; [apply chars_quiet; auto|]. constructor; [split; discriminate|apply chars_quiet; auto]. }
  destruct (finite x) eqn:Hf.
  - rewrite to_string_finite by auto. split.
    + apply Forall_app. split; [apply quiet_lit|apply Hq, mill_nonneg].
    + intros E. apply (f_equal (@List.length ascii)) in E. unfold fixed_chars in E. rewrite !app_length in E. simpl in E. lia.
  - destruct x as [s|s| |s m e B]; try discriminate; [destruct s|]; split; try discriminate; repeat constructor; discriminate.
Qed.
Lemma quiet_not s c : Forall quiet s -> c = comma \/ c = newline -> ~ In c s.
Proof. intros Hs Hc Hi. rewrite Forall_forall in Hs. destruct (Hs c Hi) as (H1 & H2). destruct Hc; congruence. Qed.
Lemma sep_one d l : ~ In d l -> l <> [] -> separated d l [l].
Proof. intros H1 H2. split; [repeat constructor; auto|]. right. exists [], l. auto. Qed.
Lemma sep_cons d l s ls : ~ In d l -> separated d s ls -> separated d (l ++ d :: s) (l :: ls).
Proof.
  intros H1 (H2 & H3). split; [constructor; auto|]. destruct H3 as [->|(ls' & la & -> & Hn & ->)].
  - left. simpl. rewrite <- app_assoc. reflexivity.
  - right. exists (l :: ls'), la. split; [reflexivity|]. split; auto. simpl. rewrite <- !app_assoc. reflexivity.
Qed.
Lemma row_chars_sep r : r <> [] -> separated comma (row_chars r) (map to_string r).
Proof.
  induction r as [|x r IH]; [congruence|]. intros _. destruct (to_string_quiet x) as (Hq & Hn).
  assert (Hc : ~ In comma (to_string x)) by (apply quiet_not; auto).
  destruct r as [|y r]; [apply sep_one; auto|].
  change (row_chars (x :: y :: r)) with (to_string x ++ comma :: row_chars (y :: r)).
  cbn [map]. apply sep_cons; auto. apply IH. discriminate.
Qed.
Lemma row_chars_line r : ~ In newline (row_chars r).
Proof.
  induction r as [|x r IH]; simpl; auto. destruct (to_string_quiet x) as (Hq & _).
  assert (Hc : ~ In newline (to_string x)) by (apply quiet_not; auto).
  destruct r as [|y r]; auto. intros Hi. apply in_app_or in Hi as [Hi|[Hi|Hi]]; auto. discriminate Hi.
Qed.
Lemma file_written header data : ~ In newline header ->
  file_text (match header with [] => false | _ => true end) (writeToFile header data) (map row_chars data).
Proof.
  intros Hh. assert (Hs : separated newline (List.concat (map (fun r => row_chars r ++ [newline]) data)) (map row_chars data)).
  { split; [|left; rewrite map_map; reflexivity]. apply Forall_forall. intros l Hl. apply in_map_iff in Hl as (r & <- & _). apply row_chars_line. }
  unfold writeToFile. destruct header as [|c h]; [exact Hs|]. exists (c :: h). rewrite <- app_assoc. apply sep_cons; auto.
Qed.

(** C99: every number of a written file is read back, up to the rounding to six decimals *)
Theorem C99_roundtrip_partial header data idx old : ~ In newline header ->
  Forall (fun r => r <> [] /\ Forall (fun i => (i < List.length r)%nat) idx) data ->
  exists nums, loadCsvFields (Some (writeToFile header data)) (match header with [] => false | _ => true end) idx old = Loaded (old ++ nums)
    /\ Forall2 (fun r nr => Forall2 (fun i y => exists x, nth_error r i = Some x /\ reread x y) idx nr) data nums.
Proof.
  intros Hh Hd.
  assert (Hnum : exists nums, Forall2 (has_numbers idx) (map (map to_string) data) nums
    /\ Forall2 (fun r nr => Forall2 (fun i y => exists x, nth_error r i = Some x /\ reread x y) idx nr) data nums).
  { induction Hd as [|r data (_ & Hi) _ (nums & IH1 & IH2)]; [exists []; split; constructor|].
    assert (Hrow : exists nr, has_numbers idx (map to_string r) nr /\ Forall2 (fun i y => exists x, nth_error r i = Some x /\ reread x y) idx nr).
    { clear -Hi. induction Hi as [|i idx Hl _ (nr & IH1 & IH2)]; [exists []; split; constructor|].
      destruct (nth_error r i) as [x|] eqn:Ex; [|apply nth_error_None in Ex; lia].
      destruct (C99_number_partial x) as (y & E & Hy). exists (y :: nr). split.
      - constructor; [|exact IH1]. exists (to_string x). split; auto. rewrite nth_error_map, Ex. reflexivity.
      - constructor; [|exact IH2]. exists x. auto. }
    destruct Hrow as (nr & R1 & R2). exists (nr :: nums). split; constructor; auto. }
  destruct Hnum as (nums & H1 & H2). exists nums. split; auto.
  apply C98_load with (lines := map row_chars data) (rows := map (map to_string) data); auto; [apply file_written; auto|].
  clear -Hd. induction Hd as [|r data (Hn & _) _ IH]; constructor; auto. split; [apply row_chars_sep; auto|].
  destruct r; [congruence|discriminate].
Qed.
(** C99: ... which changes no number by more than 10^-6, and none from 2^33 on *)
Theorem C99_error_partial x y : finite x = true -> reread x y ->
  Rabs (val y - val x) <= / 1000000 /\ (8589934592 <= Rabs (val x) -> y = x).
Proof.
  intros Hf Hy. assert (Hy' : finite y = true /\ val y = rnd64 (in_millionths (val x)) /\ Bsign y = Bsign x) by (destruct x; try discriminate; exact Hy).
  destruct Hy' as (F & V & S). rewrite V. split; [apply reread_error, fmt_val|]. intros Hb.
  apply B2R_Bsign_inj; auto. rewrite V. rewrite (val_signed x) by auto. rewrite in_millionths_signed, rnd_signed.
  f_equal. apply reread_big; [apply abs_fmt|rewrite big_val; auto].
Qed.
(** C99: ... and writing it again gives the same file *)
Theorem C99_stable_partial header data data' : Forall2 (Forall2 reread) data data' -> writeToFile header data' = writeToFile header data.
Proof.
  assert (H1 : forall x y, reread x y -> to_string y = to_string x).
  { intros x y Hy. destruct (finite x) eqn:Hf.
    2:{ destruct x; try discriminate; simpl in Hy; subst; reflexivity. }
    assert (Hy' : finite y = true /\ val y = rnd64 (in_millionths (val x)) /\ Bsign y = Bsign x) by (destruct x; try discriminate; exact Hy).
    destruct Hy' as (F & V & S). rewrite !to_string_finite, S by auto. do 2 f_equal. unfold mill. rewrite V.
    rewrite (val_signed x) at 1 by auto. rewrite in_millionths_signed, rnd_signed, signed_abs.
    rewrite (Rabs_pos_eq (rnd64 _)); [apply reread_again; [apply abs_fmt|apply Rabs_pos]|].
    rewrite <- rnd_0. apply rnd_mono, millionth_nonneg, Rabs_pos. }
  assert (H2 : forall r r', Forall2 reread r r' -> row_chars r' = row_chars r).
  { induction 1 as [|x y r r' Hxy Hr IH]; [reflexivity|]. simpl. rewrite (H1 x y Hxy), IH. inversion Hr; reflexivity. }
  intros H. unfold writeToFile. f_equal. induction H as [|r r' data data' Hr _ IH]; [reflexivity|]. simpl. rewrite (H2 _ _ Hr), IH. reflexivity.
Qed.

(** C99 as a user would want it is false: 2^-30 comes back as 0 *)
Definition C99_claim : Prop := forall header data idx old nums, ~ In newline header -> header <> [] ->
  Forall (fun r => r <> [] /\ Forall (fun x => finite x = true) r /\ idx = seq 0 (List.length r)) data ->
  loadCsvFields (Some (writeToFile header data)) true idx old = Loaded (old ++ nums) -> nums = data.
Theorem C99_refuted : ~ C99_claim.
Proof.
  intros H. specialize (H (lit "variance") [[fl64 1 (-30)]] [0%nat] [] [[B754_zero false]]).
  assert (C : [[B754_zero false : f64]] = [[fl64 1 (-30)]]).
  { apply H.
    - simpl. intros D. repeat destruct D as [D|D]; try discriminate D. exact D.
    - discriminate.
    - repeat constructor. discriminate.
    - reflexivity. }
  injection C as C. apply (f_equal (fun x : f64 => B2SF x)) in C. vm_compute in C. discriminate C.
Qed.

(** Witnesses: a file with a header and CRLF line ends; the written file of two rows *)
Example C98_nonvacuous : let cr := ascii_of_nat 13 in let s := lit "a,b,c" ++ [cr; newline] ++ lit "1,x,2.5" ++ [cr; newline] ++ lit " -3e2,,.5" in
  match loadCsvFields (Some s) true [2%nat; 0%nat] [] with Loaded nums => map (map (fun x : f64 => B2SF x)) nums | _ => [] end =
    [[B2SF (fl64 5 (-1)); B2SF (fl64 1 0)]; [B2SF (fl64 1 (-1)); B2SF (fl64 (-300) 0)]].
Proof. vm_compute. reflexivity. Qed.
Example C98_nonvacuous_number : decimal_text (lit " -1.50E+2,x") true (IZR 150 * ten (-2 + 2)).
Proof.
  apply (decimal_intro (lit " ") (lit "-") true (chars [1%Z] ++ lit "." ++ chars [5; 0]%Z) 150 (-2) (lit "E+2") 2 (lit ",x")).
  - repeat constructor.
  - constructor.
  - apply (mantissa_frac [1%Z] [5; 0]%Z); [discriminate|..]; repeat constructor; discriminate.
  - apply (exponent_some "E" (lit "+") false [2%Z]); [auto|constructor|discriminate|repeat constructor; discriminate].
  - simpl. intros H. repeat destruct H as [H|H]; try discriminate H. exact H.
Qed.
Example C98_nonvacuous_throws : stod (lit "1e400") = OutOfRange /\ stod (lit "-4e-400") = OutOfRange /\ stod (lit "1e-310") = OutOfRange /\
  stod (lit "") = InvalidArgument /\ stod (lit " -,") = InvalidArgument /\ stod (lit ".x") = InvalidArgument /\
  no_number (lit ".x") /\ no_number [] /\
  match loadCsvFields (Some (lit "1,2" ++ [newline] ++ lit "3,x")) false [0%nat; 1%nat] [] with Threw nums => map (map (fun x : f64 => B2SF x)) nums | _ => [] end =
    [[B2SF (fl64 1 0); B2SF (fl64 2 0)]].
Proof.
  do 6 (split; [vm_compute; reflexivity|]). split; [|split; [exact I|]].
  - split; [reflexivity|]. split; [reflexivity|]. intros H. simpl in H. repeat destruct H as [H|H]; try discriminate H. exact H.
  - vm_compute. reflexivity.
Qed.
Example C99_nonvacuous : ~ In newline (lit "t,x") /\
  Forall (fun r => r <> [] /\ Forall (fun i => (i < List.length r)%nat) [1%nat]) [[fl64 1 0; fl64 1 (-30)]; [fl64 3 (-1); fl64 (-1) 40]]
  /\ writeToFile (lit "t,x") [[fl64 1 0; fl64 1 (-30)]; [fl64 3 (-1); fl64 (-1) 40]] =
     lit "t,x" ++ [newline] ++ lit "1.000000,0.000000" ++ [newline] ++ lit "1.500000,-1099511627776.000000" ++ [newline].
Proof.
  split; [simpl; intros D; repeat destruct D as [D|D]; try discriminate D; exact D|]. split; [repeat constructor; discriminate|].
  vm_compute. reflexivity.
Qed.
