(* The conversions of single values of a parameter file against what stands in the text. *)
From Coq Require Import Ascii String Lia.
From Verif Require Import Base CsvModel ParaModel UtilModel BdryModel AppModel FileModel.
Open Scope list_scope.
Open Scope nat_scope.

Definition code (c : ascii) : nat := nat_of_ascii c.
Definition blank (c : ascii) : Prop := code c = 32 \/ 9 <= code c <= 13.
Definition numeric (c : ascii) : Prop := 48 <= code c <= 57.
Definition leads (P : ascii -> Prop) (s : text) : Prop := exists c r, s = c :: r /\ P c.
(* the first word of a text *)
Definition first_word (s w : text) : Prop :=
  exists sp rest, s = sp ++ w ++ rest /\ w <> [] /\ Forall blank sp /\ Forall (fun c => ~ blank c) w /\ (rest = [] \/ leads blank rest).
(* a decimal number at the beginning of a text: its sign and its value without sign *)
Definition decimal_value (ds : text) : Z := fold_left (fun a c => 10 * a + (Z.of_nat (code c) - 48))%Z ds 0%Z.
Definition first_number (s : text) (neg : bool) (v : Z) : Prop :=
  exists sp sign ds rest, s = sp ++ sign ++ ds ++ rest /\ Forall blank sp /\
    ((sign = ["-"%char] /\ neg = true) \/ ((sign = [] \/ sign = ["+"%char]) /\ neg = false)) /\
    ds <> [] /\ Forall numeric ds /\ ~ leads numeric rest /\ v = decimal_value ds.
Definition signed (neg : bool) (v : Z) : Z := if neg then (- v)%Z else v.

Lemma space_iff c : is_space c = true <-> blank c.
Proof. unfold is_space, blank, code. rewrite orb_true_iff, andb_true_iff, Nat.eqb_eq, !Nat.leb_le. tauto. Qed.
Lemma digit_some c d : digit c = Some d <-> numeric c /\ d = (Z.of_nat (code c) - 48)%Z.
Proof.
  unfold digit, numeric, code. destruct (Nat.leb 48 (nat_of_ascii c) && Nat.leb (nat_of_ascii c) 57) eqn:E.
  - rewrite andb_true_iff, !Nat.leb_le in E. split.
    + intros H. injection H as <-. split; [exact E|]. rewrite Nat2Z.inj_sub by lia. reflexivity.
    + intros [_ ->]. f_equal. rewrite Nat2Z.inj_sub by lia. reflexivity.
  - split; [discriminate|]. intros [[A B] _]. apply Nat.leb_le in A. apply Nat.leb_le in B. rewrite A, B in E. discriminate.
Qed.
Lemma digit_none c : digit c = None <-> ~ numeric c.
Proof.
  destruct (digit c) as [d|] eqn:E.
  - apply digit_some in E. split; [discriminate|tauto].
  - split; [|reflexivity]. intros _ N. assert (K : digit c = Some (Z.of_nat (code c) - 48)%Z) by (apply digit_some; auto). congruence.
Qed.
Lemma skip_split s : exists sp, s = sp ++ skip_space s /\ Forall blank sp /\ ~ leads blank (skip_space s).
Proof.
  induction s as [|c s (sp & E & F & N)]; cbn [skip_space].
  - exists []. split; [reflexivity|]. split; [constructor|]. intros (c & r & X & _). discriminate.
  - destruct (is_space c) eqn:S.
    + exists (c :: sp). split; [cbn; rewrite <- E; reflexivity|]. split; [constructor; [apply space_iff, S|exact F]|exact N].
    + exists []. split; [reflexivity|]. split; [constructor|]. intros (d & r & X & B). injection X as -> ->. apply space_iff in B. congruence.
Qed.
Lemma skip_app sp s : Forall blank sp -> ~ leads blank s -> skip_space (sp ++ s) = s.
Proof.
  intros F N. induction F as [|c sp B F IH].
  - destruct s as [|c r]; [reflexivity|]. cbn. destruct (is_space c) eqn:S; [|reflexivity]. exfalso. apply N. exists c, r. split; [reflexivity|apply space_iff, S].
  - cbn. replace (is_space c) with true by (symmetry; apply space_iff, B). exact IH.
Qed.
Lemma word_split s : exists rest, s = word s ++ rest /\ Forall (fun c => ~ blank c) (word s) /\ (rest = [] \/ leads blank rest).
Proof.
  induction s as [|c s (rest & E & F & N)]; cbn [word].
  - exists []. split; [reflexivity|]. split; [constructor|left; reflexivity].
  - destruct (is_space c) eqn:S.
    + exists (c :: s). split; [reflexivity|]. split; [constructor|]. right. exists c, s. split; [reflexivity|apply space_iff, S].
    + exists rest. split; [cbn; rewrite <- E; reflexivity|]. split; [|exact N]. constructor; [|exact F]. intros B. apply space_iff in B. congruence.
Qed.
Lemma word_app w rest : Forall (fun c => ~ blank c) w -> rest = [] \/ leads blank rest -> word (w ++ rest) = w.
Proof.
  intros F R. induction F as [|c w B F IH].
  - destruct R as [->|(c & r & -> & B)]; [reflexivity|]. cbn. apply space_iff in B. rewrite B. reflexivity.
  - cbn. destruct (is_space c) eqn:S; [apply space_iff in S; contradiction|]. rewrite IH. reflexivity.
Qed.
Lemma text_word s w : to_text s = Some w <-> first_word s w.
Proof.
  unfold to_text. split.
  - intros H. destruct (skip_split s) as (sp & E & F & _). destruct (word_split (skip_space s)) as (rest & E2 & F2 & R).
    assert (W : w = word (skip_space s) /\ w <> []) by (destruct (word (skip_space s)); [discriminate|injection H as <-; split; [reflexivity|discriminate]]). destruct W as [W NW].
    exists sp, rest. rewrite W, <- E2. rewrite <- W at 2. rewrite W in NW. split; [exact E|]. split; [exact NW|]. split; [exact F|]. split; [rewrite W; exact F2|exact R].
  - intros (sp & rest & -> & NW & F & F2 & R). rewrite skip_app, word_app; try assumption.
    + destruct w; [contradiction|reflexivity].
    + intros (c & r & E & B). destruct w as [|d w]; [contradiction|]. injection E as -> _. inversion F2; contradiction.
Qed.

Lemma digits_app ds rest : Forall numeric ds -> ~ leads numeric rest -> forall a, digits (ds ++ rest) a = fold_left (fun a c => 10 * a + (Z.of_nat (code c) - 48))%Z ds a.
Proof.
  intros F N. induction F as [|c ds D F IH]; intros a.
  - destruct rest as [|c r]; [reflexivity|]. cbn. replace (digit c) with (@None Z); [reflexivity|]. symmetry. apply digit_none. intros D. apply N. exists c, r. auto.
  - cbn [app digits fold_left]. replace (digit c) with (Some (Z.of_nat (code c) - 48)%Z); [apply IH|]. symmetry. apply digit_some. auto.
Qed.
Lemma digits_split s : exists ds rest, s = ds ++ rest /\ Forall numeric ds /\ ~ leads numeric rest.
Proof.
  induction s as [|c s (ds & rest & E & F & N)].
  - exists [], []. split; [reflexivity|]. split; [constructor|]. intros (c & r & X & _). discriminate.
  - destruct (digit c) as [d|] eqn:D.
    + exists (c :: ds), rest. split; [cbn; rewrite <- E; reflexivity|]. split; [|exact N]. constructor; [apply (proj1 (digit_some c d)), D|exact F].
    + exists [], (c :: s). split; [reflexivity|]. split; [constructor|]. intros (x & r & X & B). injection X as -> ->. apply digit_none in D. contradiction.
Qed.
Definition split_sign (s : text) : bool * text := match s with "-"%char :: s' => (true, s') | "+"%char :: s' => (false, s') | _ => (false, s) end.
(* the common part of the two conversions *)
Definition numeral (s : text) : option (bool * Z) :=
  let s := skip_space s in
  let '(neg, s) := split_sign s in
  match s with c :: _ => match digit c with Some _ => Some (neg, digits s 0%Z) | None => None end | [] => None end.
Lemma sign_split (s : text) : exists sign neg s', split_sign s = (neg, s') /\ s = sign ++ s' /\
  ((sign = ["-"%char] /\ neg = true) \/ ((sign = [] \/ sign = ["+"%char]) /\ neg = false)).
Proof.
  destruct s as [|c s]; [exists [], false, []; (split; [reflexivity|]; split; [reflexivity|]; tauto)|].
  destruct (Ascii.eqb c "-"%char) eqn:E1; [apply Ascii.eqb_eq in E1; subst; exists ["-"%char], true, s; (split; [reflexivity|]; split; [reflexivity|]; tauto)|].
  destruct (Ascii.eqb c "+"%char) eqn:E2; [apply Ascii.eqb_eq in E2; subst; exists ["+"%char], false, s; (split; [reflexivity|]; split; [reflexivity|]; tauto)|].
  exists [], false, (c :: s). split; [|split; [reflexivity|tauto]]. destruct c as [[] [] [] [] [] [] [] []]; cbn in E1, E2; first [discriminate|reflexivity].
Qed.
Lemma sign_app sign neg c r : ((sign = ["-"%char] /\ neg = true) \/ ((sign = [] \/ sign = ["+"%char]) /\ neg = false)) -> numeric c ->
  split_sign (sign ++ c :: r) = (neg, c :: r).
Proof.
  intros [(-> & ->)|([->| ->] & ->)] D; [reflexivity| |reflexivity]. unfold numeric, code in D.
  destruct c as [[] [] [] [] [] [] [] []]; cbn in D |- *; try reflexivity; lia.
Qed.
Lemma numeral_iff s neg v : numeral s = Some (neg, v) <-> first_number s neg v.
Proof.
  unfold numeral. split.
  - destruct (skip_split s) as (sp & E & F & _). destruct (sign_split (skip_space s)) as (sign & n & s' & E1 & E2 & SG). rewrite E1. cbv beta iota zeta.
    destruct (digits_split s') as (ds & rest & E3 & F3 & N3).
    destruct s' as [|c r] eqn:ES; [discriminate|]. destruct (digit c) as [d|] eqn:D; [|discriminate]. intros H.
    exists sp, sign, ds, rest. apply digit_some in D. destruct D as [D _]. rewrite E3 in H, E2. rewrite digits_app in H by assumption. injection H as <- <-.
    split; [rewrite <- E2; exact E|]. split; [exact F|]. split; [exact SG|]. split; [|split; [exact F3|split; [exact N3|reflexivity]]].
    intros ->. apply N3. exists c, r. cbn in E3. split; [symmetry; exact E3|exact D].
  - intros (sp & sign & ds & rest & -> & F & SG & ND & FD & NR & ->). destruct ds as [|c ds]; [contradiction|]. pose proof (Forall_inv FD) as DC.
    rewrite skip_app; [|exact F|].
    + change ((c :: ds) ++ rest) with (c :: (ds ++ rest)). rewrite (sign_app sign neg c (ds ++ rest) SG DC). cbv beta iota zeta.
      replace (digit c) with (Some (Z.of_nat (code c) - 48)%Z) by (symmetry; apply digit_some; auto).
      change (c :: ds ++ rest) with ((c :: ds) ++ rest). rewrite digits_app by assumption. reflexivity.
    + intros (x & r & E & B). unfold blank, numeric, code in *. destruct SG as [(-> & _)|([->| ->] & _)]; injection E as <- _; cbn in B; lia.
Qed.
Lemma integer_iff s z : to_integer s = Some z <-> exists neg v, first_number s neg v /\ z = signed neg v /\ (-2147483648 <= z <= 2147483647)%Z.
Proof.
  assert (E : to_integer s = match numeral s with Some (neg, v) => if ((signed neg v <? -2147483648) || (2147483647 <? signed neg v))%Z then None else Some (signed neg v) | None => None end).
  { unfold numeral. destruct (sign_split (skip_space s)) as (sign & n & s' & E1 & _). unfold to_integer, stoi, to_count. cbv zeta. fold (split_sign (skip_space s)). rewrite E1. cbv beta iota zeta. destruct s' as [|c r]; [reflexivity|]. destruct (digit c); reflexivity. }
  rewrite E. split.
  - destruct (numeral s) as [[neg v]|] eqn:N; [|discriminate]. destruct (_ || _)%bool eqn:B; [discriminate|]. intros H. injection H as <-. exists neg, v. apply numeral_iff in N.
    apply orb_false_iff in B. rewrite !Z.ltb_ge in B. split; [exact N|]. split; [reflexivity|lia].
  - intros (neg & v & N & -> & B). apply numeral_iff in N. rewrite N. replace ((signed neg v <? -2147483648) || (2147483647 <? signed neg v))%Z with false; [reflexivity|].
    symmetry. apply orb_false_iff. rewrite !Z.ltb_ge. lia.
Qed.
Lemma count_iff s z : to_count s = Some z <-> exists neg v, first_number s neg v /\ (v <= 18446744073709551615)%Z /\ z = (signed neg v mod 18446744073709551616)%Z.
Proof.
  assert (E : to_count s = match numeral s with Some (neg, v) => if (18446744073709551615 <? v)%Z then None else Some (to_size (signed neg v)) | None => None end).
  { unfold numeral. destruct (sign_split (skip_space s)) as (sign & n & s' & E1 & _). unfold to_integer, stoi, to_count. cbv zeta. fold (split_sign (skip_space s)). rewrite E1. cbv beta iota zeta. destruct s' as [|c r]; [reflexivity|]. destruct (digit c); reflexivity. }
  rewrite E. split.
  - destruct (numeral s) as [[neg v]|] eqn:N; [|discriminate]. destruct (_ <? _)%Z eqn:B; [discriminate|]. intros H. injection H as <-. exists neg, v. apply numeral_iff in N.
    rewrite Z.ltb_ge in B. split; [exact N|]. split; [exact B|reflexivity].
  - intros (neg & v & N & B & ->). apply numeral_iff in N. rewrite N. replace (18446744073709551615 <? v)%Z with false by (symmetry; apply Z.ltb_ge; exact B). reflexivity.
Qed.
Lemma bool_iff s b : to_bool s = Some b <-> to_integer s = Some (if b then 1 else 0)%Z.
Proof.
  unfold to_bool. change (to_integer s) with (stoi s). destruct (stoi s) as [z|]; [|split; destruct b; discriminate].
  split.
  - destruct z as [|[| |]|]; try discriminate; intros H; injection H as <-; reflexivity.
  - intros H. injection H as ->. destruct b; reflexivity.
Qed.
Lemma value_nonneg ds : Forall numeric ds -> forall a, (0 <= a)%Z -> (0 <= fold_left (fun a c => 10 * a + (Z.of_nat (code c) - 48))%Z ds a)%Z.
Proof. intros F. induction F as [|c ds N F IH]; intros a A; [exact A|]. cbn [fold_left]. apply IH. unfold numeric in N. lia. Qed.
Lemma number_nonneg s neg v : first_number s neg v -> (0 <= v)%Z.
Proof. intros (sp & sign & ds & rest & _ & _ & _ & _ & F & _ & ->). apply (value_nonneg ds F). lia. Qed.
Lemma flag_iff s b : to_bool s = Some b <-> if b then first_number s false 1%Z else exists neg, first_number s neg 0%Z.
Proof.
  rewrite bool_iff, integer_iff. destruct b; split.
  - intros (neg & v & F & E & _). pose proof (number_nonneg _ _ _ F). destruct neg; cbn [signed] in E; [lia|]. subst v. exact F.
  - intros F. exists false, 1%Z. split; [exact F|]. split; [reflexivity|lia].
  - intros (neg & v & F & E & _). exists neg. replace 0%Z with v; [exact F|]. destruct neg; cbn [signed] in E; lia.
  - intros (neg & F). exists neg, 0%Z. split; [exact F|]. split; [destruct neg; reflexivity|lia].
Qed.
