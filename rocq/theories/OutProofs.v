(* Lemmas about the text output. *)
From Coq Require Import Ascii String Decimal DecimalPos DecimalN Qabs Qround Lqa Lia.
From Verif Require Import Base GeomModel UtilModel FacetModel BdryModel AdvanceModel MeshModel OutModel OutSpec.
Open Scope nat_scope.
Open Scope list_scope.

(* ---- numbers ---- *)
Lemma read_digits_app t1 t2 : forall v, read_digits v (t1 ++ t2) = match read_digits v t1 with Some u => read_digits u t2 | None => None end.
Proof. induction t1 as [|c t1 IH]; intros v; [reflexivity|]. cbn. destruct (digit_value c); [apply IH|reflexivity]. Qed.
Lemma read_acc u : forall p, read_digits (Zpos p) (digits u) = Some (Zpos (Pos.of_uint_acc u p)).
Proof.
  induction u; intros p; [reflexivity|..]; cbn [digits read_digits Pos.of_uint_acc];
    match goal with |- context [digit_value ?c] => let d := eval vm_compute in (digit_value c) in change (digit_value c) with d end; cbv iota; rewrite <- IHu; f_equal; lia.
Qed.
Lemma read_uint u : read_digits 0 (digits u) = Some (Z.of_N (Pos.of_uint u)).
Proof. induction u; [reflexivity|exact IHu|..]; cbn -[Z.mul Z.add]; rewrite <- read_acc; f_equal. Qed.
Lemma to_uint_nonempty n : digits (N.to_uint n) <> [].
Proof.
  destruct n as [|p]; [discriminate|]. cbn. pose proof (DecimalPos.Unsigned.to_uint_nonnil p) as H. destruct (Pos.to_uint p); cbn; [contradiction|discriminate..].
Qed.
Lemma read_dec0 n : read_digits 0 (dec n) = Some (Z.of_N n).
Proof. unfold dec. rewrite read_uint. f_equal. f_equal. exact (DecimalN.Unsigned.of_to n). Qed.
Lemma dec_nonempty n : dec n <> [].
Proof. apply to_uint_nonempty. Qed.
Lemma read_dec n : read_nat (dec n) = Some (Z.of_N n).
Proof. unfold read_nat. pose proof (dec_nonempty n). rewrite <- read_dec0. destruct (dec n); [contradiction|reflexivity]. Qed.

(* characters of numbers *)
Definition is_digit (c : ascii) : Prop := exists d, digit_value c = Some d.
Lemma digits_digit u : Forall is_digit (digits u).
Proof. induction u; [constructor|..]; cbn; (constructor; [eexists; reflexivity|assumption]). Qed.
Lemma dec_digit n : Forall is_digit (dec n).
Proof. apply digits_digit. Qed.
Definition numeric (c : ascii) : bool := match digit_value c with Some _ => true | None => Ascii.eqb c "-"%char || Ascii.eqb c "."%char end.
Lemma digit_numeric c : is_digit c -> numeric c = true.
Proof. intros [d H]. unfold numeric. rewrite H. reflexivity. Qed.
Lemma numeric_not c x : numeric c = true -> numeric x = false -> Ascii.eqb c x = false.
Proof. intros A B. destruct (Ascii.eqb_spec c x) as [->|N]; [congruence|reflexivity]. Qed.
Lemma digit_not c x : is_digit c -> digit_value x = None -> Ascii.eqb c x = false.
Proof. intros [d A] B. destruct (Ascii.eqb_spec c x) as [->|N]; [congruence|reflexivity]. Qed.
Definition is_number (t : text) : Prop := t <> [] /\ forallb numeric t = true.
Lemma dec_number n : is_number (dec n).
Proof. split; [apply dec_nonempty|]. apply forallb_forall. intros c I. apply digit_numeric. pose proof (dec_digit n) as F. rewrite Forall_forall in F. exact (F c I). Qed.
Lemma int_number z : is_number (int_text z).
Proof. destruct z; [apply dec_number|apply dec_number|]. cbn. split; [discriminate|]. cbn. apply (dec_number (Npos p)). Qed.

Lemma read_int_text z : read_int (int_text z) = Some z.
Proof.
  assert (P : forall n, read_int (dec n) = Some (Z.of_N n)).
  { intros n. pose proof (dec_digit n) as F. pose proof (read_dec n) as R. destruct (dec n) as [|c r] eqn:E; [exact (False_ind _ (dec_nonempty n E))|].
    unfold read_int. inversion F as [|? ? D _]; subst. rewrite (digit_not c "-"%char D eq_refl). exact R. }
  destruct z as [|p|p]; [reflexivity|apply P|]. cbn [int_text]. unfold read_int. rewrite Ascii.eqb_refl, read_dec. reflexivity.
Qed.

(* ---- five decimals ---- *)
Lemma near_even_close q : (Qabs (inject_Z (near_even q) - q) <= 1#2)%Q.
Proof.
  unfold near_even. pose proof (Qfloor_le q) as A. pose proof (Qlt_floor q) as B. rewrite inject_Z_plus in B. change (inject_Z 1) with 1%Q in B.
  set (f := Qfloor q) in *. apply Qabs_case; destruct (Qlt_le_dec (q - inject_Z f) (1#2)) as [C|C];
    try (destruct (Qlt_le_dec (1#2) (q - inject_Z f)) as [D|D]); try (destruct (Z.even f)); rewrite ?inject_Z_plus; change (inject_Z 1) with 1%Q; intros; lra.
Qed.
Lemma near_even_nonneg q : (0 <= q)%Q -> (0 <= near_even q)%Z.
Proof.
  intros H. assert (F : (0 <= Qfloor q)%Z) by (change 0%Z with (Qfloor 0); apply Qfloor_resp_le; exact H).
  unfold near_even. destruct (Qlt_le_dec _ _); [lia|]. destruct (Qlt_le_dec _ _); [lia|]. destruct (Z.even _); lia.
Qed.
Lemma digit_char d : (d < 10)%N -> digit_value (ascii_of_N (48 + d)) = Some (Z.of_N d).
Proof.
  intros L. destruct d as [|d]; [reflexivity|]. do 9 (destruct d as [d|d|]; try reflexivity; try (exfalso; lia)).
Qed.
Lemma last_digit k : forall n, Forall is_digit (last_digits k n).
Proof.
  induction k as [|k IH]; intros n; [constructor|]. cbn [last_digits]. apply Forall_app. split; [apply IH|]. constructor; [|constructor].
  eexists. apply digit_char. apply N.mod_lt. discriminate.
Qed.
Lemma last_length k : forall n, List.length (last_digits k n) = k.
Proof. induction k as [|k IH]; intros n; [reflexivity|]. cbn [last_digits]. rewrite app_length, IH. cbn. lia. Qed.
Lemma read_last k : forall n, read_digits 0 (dec (n / 10 ^ N.of_nat k) ++ last_digits k n) = Some (Z.of_N n).
Proof.
  induction k as [|k IH]; intros n.
  - cbn [last_digits N.of_nat]. rewrite N.pow_0_r, N.div_1_r, app_nil_r. apply read_dec0.
  - cbn [last_digits]. rewrite app_assoc, read_digits_app. replace (n / 10 ^ N.of_nat (S k))%N with (n / 10 / 10 ^ N.of_nat k)%N.
    + rewrite IH. cbn [read_digits]. rewrite digit_char by (apply N.mod_lt; discriminate). f_equal.
      pose proof (N.div_mod n 10 ltac:(discriminate)). lia.
    + rewrite N.div_div; [|discriminate|apply N.pow_nonzero; discriminate]. f_equal. replace (N.of_nat (S k)) with (N.succ (N.of_nat k)) by lia. rewrite N.pow_succ_r by lia. lia.
Qed.
Lemma last_read k n : exists v, read_digits 0 (last_digits k n) = Some v.
Proof.
  pose proof (last_digit k n) as F. generalize 0%Z. induction (last_digits k n) as [|c t IH]; intros v; [exists v; reflexivity|].
  inversion F as [|? ? [d D] F']; subst. cbn. rewrite D. exact (IH F' _).
Qed.
(* the text of a number reads as the closest multiple of 1/100000 *)
Definition round5 (q : Q) : Q := (inject_Z (near_even (Qabs q * 100000)) / 100000)%Q.
Definition shown (q : Q) : Q := if Qlt_le_dec q 0 then (- round5 q)%Q else round5 q.
Lemma split_digits s t r : Forall is_digit t -> digit_value s = None -> split_at s (t ++ s :: r) = (t, Some r).
Proof.
  intros F D. induction t as [|c t IH]; cbn; [rewrite Ascii.eqb_refl; reflexivity|]. inversion F as [|? ? C F']; subst. rewrite (digit_not c s C D), (IH F'). reflexivity.
Qed.
Lemma read_fixed5 q : read_number (fixed5 q) = Some (shown q).
Proof.
  unfold fixed5. set (n := Z.to_N _). assert (U : read_unsigned (dec (n / 10 ^ 5) ++ "."%char :: last_digits 5 n) = Some (round5 q)).
  { unfold read_unsigned. rewrite (split_digits "."%char _ _ (dec_digit _) eq_refl), read_dec. destruct (last_read 5 n) as [v ->].
    pose proof (read_last 5 n) as RL. change (N.of_nat 5) with 5%N in RL. rewrite RL, last_length. cbn [option_map]. unfold n, round5. rewrite Z2N.id; [reflexivity|]. apply near_even_nonneg. pose proof (Qabs_nonneg q). lra. }
  unfold shown. destruct (Qlt_le_dec q 0).
  - cbn [app]. unfold read_number. rewrite Ascii.eqb_refl, U. reflexivity.
  - cbn [app]. pose proof (dec_digit (n / 10 ^ 5)) as D. pose proof (dec_nonempty (n / 10 ^ 5)) as E. revert U. destruct (dec (n / 10 ^ 5)) as [|c r]; [contradiction|].
    intros U. cbn [app] in *. unfold read_number. inversion D as [|? ? D1 _]; subst. rewrite (digit_not c "-"%char D1 eq_refl). exact U.
Qed.
Lemma shown_close q : (Qabs (shown q - q) <= 1 # 200000)%Q.
Proof.
  assert (R : (Qabs (round5 q - Qabs q) <= 1 # 200000)%Q).
  { unfold round5. pose proof (near_even_close (Qabs q * 100000)) as C. set (z := inject_Z _) in *.
    assert (E : (z / 100000 == z * (1 # 100000))%Q) by (unfold Qdiv; reflexivity). rewrite E. apply Qabs_Qle_condition in C. apply Qabs_Qle_condition. lra. }
  apply Qabs_Qle_condition in R. apply Qabs_Qle_condition. unfold shown. destruct (Qlt_le_dec q 0) as [L|L].
  - rewrite (Qabs_neg q) in R by lra. lra.
  - rewrite (Qabs_pos q) in R by lra. lra.
Qed.
Lemma fixed5_number q : is_number (fixed5 q).
Proof.
  assert (F : forall t, Forall is_digit t -> forallb numeric t = true).
  { intros t F. apply forallb_forall. intros c I. apply digit_numeric. rewrite Forall_forall in F. exact (F c I). }
  unfold fixed5. split; [destruct (Qlt_le_dec q 0); [discriminate|]; cbn [app]; intros E; apply app_eq_nil in E; destruct E as [_ E]; discriminate|].
  rewrite !forallb_app. apply andb_true_iff. split; [destruct (Qlt_le_dec q 0); reflexivity|]. apply andb_true_iff. split; [apply F; apply dec_digit|].
  cbn [forallb]. apply andb_true_iff. split; [reflexivity|]. apply F. apply last_digit.
Qed.

(* ---- tags and words ---- *)
Definition word_char (c : ascii) : bool := negb (is_blank c) && negb (Ascii.eqb c "<"%char).
Definition is_word (t : text) : Prop := t <> [] /\ forallb word_char t = true.
Lemma number_word t : is_number t -> is_word t.
Proof.
  intros [A B]. split; [exact A|]. rewrite forallb_forall in *. intros c I. specialize (B c I). unfold word_char, is_blank.
  rewrite (numeric_not c " "%char B eq_refl), (numeric_not c (ascii_of_nat 10) B eq_refl), (numeric_not c "<"%char B eq_refl). reflexivity.
Qed.
Lemma lex_blanks n t : lex Between (blanks n ++ t) = lex Between t.
Proof. induction n as [|n IH]; [reflexivity|exact IH]. Qed.
Lemma lex_newline t : lex Between (newline ++ t) = lex Between t.
Proof. reflexivity. Qed.
Lemma lex_in_word w : forall a c t, forallb word_char w = true -> is_blank c = true -> lex (In_word a) (w ++ c :: t) = Word (rev a ++ w) :: lex Between t.
Proof.
  induction w as [|x w IH]; intros a c t W B; cbn [app lex].
  - assert (N : Ascii.eqb c "<"%char = false) by (destruct (Ascii.eqb_spec c "<"%char) as [->|N]; [discriminate|reflexivity]). rewrite N, B, app_nil_r. reflexivity.
  - cbn in W. apply andb_true_iff in W. destruct W as [W1 W2]. unfold word_char in W1. apply andb_true_iff in W1. destruct W1 as [X1 X2].
    apply negb_true_iff in X1. apply negb_true_iff in X2. rewrite X1, X2, (IH _ _ _ W2 B). cbn [rev]. rewrite <- app_assoc. reflexivity.
Qed.
Lemma lex_word w c t : is_word w -> is_blank c = true -> lex Between (w ++ c :: t) = Word w :: lex Between t.
Proof.
  intros [N W] B. destruct w as [|x w]; [contradiction|]. cbn in W. apply andb_true_iff in W. destruct W as [W1 W2]. unfold word_char in W1. apply andb_true_iff in W1. destruct W1 as [X1 X2].
  apply negb_true_iff in X1. apply negb_true_iff in X2. cbn [app lex]. rewrite X1, X2, (lex_in_word w [x] c t W2 B). reflexivity.
Qed.
Definition tag_char (c : ascii) : bool := negb (Ascii.eqb c ">"%char).
Lemma lex_in_tag w : forall a t, forallb tag_char w = true -> lex (In_tag a) (w ++ ">"%char :: t) = Tag (rev a ++ w) :: lex Between t.
Proof.
  induction w as [|x w IH]; intros a t W; cbn [app lex]; [rewrite Ascii.eqb_refl, app_nil_r; reflexivity|].
  cbn in W. apply andb_true_iff in W. destruct W as [W1 W2]. unfold tag_char in W1. apply negb_true_iff in W1. rewrite W1, (IH _ _ W2). cbn [rev]. rewrite <- app_assoc. reflexivity.
Qed.
Lemma lex_line n w t : forallb tag_char w = true -> lex Between (line n ("<"%char :: w ++ [">"%char]) ++ t) = Tag w :: lex Between t.
Proof.
  intros W. unfold line. rewrite <- app_assoc, lex_blanks. cbn [app]. rewrite <- !app_assoc. cbn [app].
  change (lex Between ("<"%char :: w ++ ">"%char :: newline ++ t)) with (lex (In_tag []) (w ++ ">"%char :: newline ++ t)).
  rewrite (lex_in_tag w [] _ W), lex_newline. reflexivity.
Qed.
Lemma digits_tag t : Forall is_digit t -> forallb tag_char t = true.
Proof. intros F. apply forallb_forall. intros c I. unfold tag_char. rewrite Forall_forall in F. rewrite (digit_not c ">"%char (F c I) eq_refl). reflexivity. Qed.

(* entries: a word behind blanks *)
Definition entry (e w : text) : Prop := is_word w /\ exists k, e = blanks k ++ w.
Lemma lex_entries es ws : Forall2 entry es ws -> forall j t, lex Between (entries j es ++ t) = map Word ws ++ lex Between t.
Proof.
  induction 1 as [|e w es ws [W [k ->]] _ IH]; intros j t; [reflexivity|]. cbn [entries map app]. rewrite <- !app_assoc.
  assert (X : lex Between ((if Nat.eqb (Nat.modulo j 10) 0 && negb (Nat.eqb j 0) then newline ++ blanks 10 else []) ++ blanks k ++ w ++ (" "%char :: entries (S j) es) ++ t) =
              lex Between (w ++ " "%char :: (entries (S j) es ++ t))).
  { destruct (Nat.eqb (Nat.modulo j 10) 0 && negb (Nat.eqb j 0)); rewrite <- ?app_assoc, ?lex_newline, ?lex_blanks; cbn [app]; rewrite ?lex_blanks; reflexivity. }
  rewrite X, (lex_word _ " "%char _ W eq_refl), IH. reflexivity.
Qed.
Definition array_items (attrs : list text) (ws : list text) : list item :=
  Tag (chars "DataArray" ++ flat_map (fun a => " "%char :: a) attrs) :: map Word ws ++ [Tag (chars "/DataArray")].
Lemma lex_array attrs es ws t : forallb (forallb tag_char) attrs = true -> Forall2 entry es ws ->
  lex Between (write_array attrs es ++ t) = array_items attrs ws ++ lex Between t.
Proof.
  intros A F. unfold write_array, array_tag. rewrite <- !app_assoc.
  assert (T : forallb tag_char (chars "DataArray" ++ flat_map (fun a => " "%char :: a) attrs) = true).
  { rewrite forallb_app. apply andb_true_iff. split; [reflexivity|]. clear F. induction attrs as [|a r IH]; [reflexivity|]. cbn in A. apply andb_true_iff in A. destruct A as [A1 A2].
    cbn [flat_map app forallb]. rewrite forallb_app, A1, (IH A2). reflexivity. }
  replace (chars "DataArray" ++ flat_map (fun a => " "%char :: a) attrs ++ [">"%char]) with ((chars "DataArray" ++ flat_map (fun a => " "%char :: a) attrs) ++ [">"%char]) by (rewrite <- app_assoc; reflexivity).
  rewrite (lex_line 8 _ _ T). unfold rows. rewrite <- !app_assoc. rewrite lex_blanks, (lex_entries es ws F 0), lex_newline.
  change (chars "</DataArray>") with ("<"%char :: chars "/DataArray" ++ [">"%char]). rewrite (lex_line 8 (chars "/DataArray") t eq_refl).
  unfold array_items. cbn [app]. rewrite <- app_assoc. reflexivity.
Qed.
Lemma entry_self ws : Forall is_word ws -> Forall2 entry ws ws.
Proof. induction 1; constructor; [split; [assumption|exists 0; reflexivity]|assumption]. Qed.
Lemma entry_setw n zs : Forall2 entry (map (fun z => setw n (int_text z)) zs) (map int_text zs).
Proof. induction zs; constructor; [split; [apply number_word; apply int_number|eexists; reflexivity]|assumption]. Qed.
