(* Property C45: import of boundaries from CSV files. *)
From Coq Require Import Ascii String Lia.
From Verif Require Import Base CsvModel CsvProofs.

(* one vertex, property pair and colour per line, in file order *)
Theorem C45_one_entry_per_line stod s cs ps ks : read_csv stod (Some s) = Ok (cs, ps, ks) <->
  exists rs, Forall2 (fun l r => well_formed stod (cells_of l) r) (lines_of s) rs /\
    cs = map r_coord rs /\ ps = map r_prop rs /\ ks = map r_color rs.
Proof. exact (read_csv_ok stod s cs ps ks). Qed.
(* the only other outcome is an error, raised exactly for a bad line *)
Theorem C45_bad_line_is_an_error stod s : read_csv stod (Some s) = Throw <->
  exists l, In l (lines_of s) /\ forall r, ~ well_formed stod (cells_of l) r.
Proof. exact (read_csv_throw stod s). Qed.
Theorem C45_never_undefined stod f : read_csv stod f <> UB.
Proof.
  destruct f as [s|]; [|discriminate]. unfold read_csv. assert (H := read_rows_no_ub stod (lines_of s)).
  destruct (read_rows stod (lines_of s)); cbn [obind]; congruence.
Qed.
(* lines and cells are what stands between the separators *)
Theorem C45_lines d ls : Forall (free d) ls -> getlines d [] (joined d ls) = ls.
Proof. exact (getlines_joined d ls). Qed.
Theorem C45_last_line d ls l : Forall (free d) ls -> free d l -> l <> [] -> getlines d [] (joined d ls ++ l) = ls ++ [l].
Proof. exact (getlines_joined_last d ls l). Qed.
(* "malformed" in the sense of the reader: text after a number is dropped
   silently (std::stoi), so not every typing error is found *)
Theorem C45_trailing_text_refuted : exists stod line r c,
  read_line stod line = Ok r /\ nth_error (cells_of line) 2 = Some c /\
  ~ (forall x, In x c -> digit x <> None \/ is_space x = true).
Proof.
  exists (fun _ => Some 1%Q), (list_ascii_of_string "1.0,2.0,3x7"), (Row (V2 1 1) (V2 0 0) 3), (list_ascii_of_string "3x7").
  split; [reflexivity|]. split; [reflexivity|]. intros H. destruct (H "x"%char) as [X|X]; [cbn; tauto| |discriminate X].
  apply X. reflexivity.
Qed.
(* a toy number reader for the example: integers only *)
Definition int_stod (t : text) : option Q := option_map inject_Z (stoi t).
Example C45_nonvacuous :
  read_csv int_stod (Some (list_ascii_of_string "0,0,1" ++ newline :: list_ascii_of_string "4,0,2,5,6" ++ [newline] ++ list_ascii_of_string " 4,3,2,,")) = Throw /\
  read_csv int_stod (Some (list_ascii_of_string "0,0,1" ++ newline :: list_ascii_of_string "4,0,2,5,6" ++ [newline] ++ list_ascii_of_string " 4,-3,12")) =
    Ok ([V2 0 0; V2 4 0; V2 4 (-3)], [V2 0 0; V2 5 6; V2 0 0], [1; 2; 12]%Z).
Proof. split; reflexivity. Qed.
(* the colours: white space, a sign and decimal digits up to the first other
   character give the number written, if it fits into 32 bits, and an error if not *)
Definition white : list ascii := map ascii_of_nat [32; 9; 10; 11; 12; 13]%nat.
Definition figures : list ascii := ["0"; "1"; "2"; "3"; "4"; "5"; "6"; "7"; "8"; "9"]%char.
Definition figure (k : nat) : ascii := nth k figures "0"%char.
Definition number_of (ks : list nat) : Z := fold_left (fun a k => 10 * a + Z.of_nat k)%Z ks 0%Z.
Definition signs : list (text * Z) := [([], 1%Z); (["+"%char], 1%Z); (["-"%char], (-1)%Z)].
Lemma figure_digit k : (k < 10)%nat -> digit (figure k) = Some (Z.of_nat k) /\ is_space (figure k) = false /\
  figure k <> "-"%char /\ figure k <> "+"%char.
Proof. intros H. do 10 (destruct k as [|k]; [repeat split; try reflexivity; discriminate|]). lia. Qed.
Lemma figure_all c : digit c <> None -> In c figures.
Proof.
  destruct c as [[] [] [] [] [] [] [] []]; vm_compute; intros H; try (exfalso; apply H; reflexivity); tauto.
Qed.
Lemma skip_white sp s : Forall (fun c => In c white) sp -> skip_space (sp ++ s) = skip_space s.
Proof.
  induction 1 as [|c sp Hc _ IH]; [reflexivity|]. cbn [app skip_space].
  replace (is_space c) with true; [exact IH|].
  cbn in Hc. repeat (destruct Hc as [<-|Hc]; [reflexivity|]). destruct Hc.
Qed.
Lemma digits_read ks rest a : Forall (fun k => k < 10)%nat ks -> (forall c r, rest = c :: r -> ~ In c figures) ->
  digits (map figure ks ++ rest) a = fold_left (fun a k => 10 * a + Z.of_nat k)%Z ks a.
Proof.
  intros H N. revert a. induction H as [|k ks Hk _ IH]; intros a.
  - cbn. destruct rest as [|c r]; [reflexivity|]. cbn. destruct (digit c) eqn:E; [|reflexivity].
    exfalso. apply (N c r eq_refl). apply figure_all. congruence.
  - cbn [map app digits]. rewrite (proj1 (figure_digit k Hk)). apply IH.
Qed.
Theorem C45_numbers sp sign f ks rest : Forall (fun c => In c white) sp -> In (sign, f) signs ->
  ks <> [] -> Forall (fun k => k < 10)%nat ks -> (forall c r, rest = c :: r -> ~ In c figures) ->
  stoi (sp ++ sign ++ map figure ks ++ rest) =
    if (Z.leb (- 2 ^ 31) (f * number_of ks) && Z.ltb (f * number_of ks) (2 ^ 31))%Z
    then Some (f * number_of ks)%Z else None.
Proof.
  intros Hs Hf Hk H N.
  assert (R : forall v, (if ((v <? -2147483648) || (2147483647 <? v))%Z then None else Some v) =
                        (if (Z.leb (- 2 ^ 31) v && Z.ltb v (2 ^ 31))%Z then Some v else None)).
  { intros v. change (- 2 ^ 31)%Z with (-2147483648)%Z. change (2 ^ 31)%Z with 2147483648%Z.
    destruct (Z.ltb_spec v (-2147483648)); destruct (Z.ltb_spec 2147483647 v); destruct (Z.leb_spec (-2147483648) v);
      destruct (Z.ltb_spec v 2147483648); cbn; try reflexivity; lia. }
  destruct ks as [|k ks]; [congruence|]. inversion H as [|? ? Hk0 Hks]; subst.
  destruct (figure_digit k Hk0) as (D & W & M & P).
  assert (V : digits (figure k :: map figure ks ++ rest) 0%Z = number_of (k :: ks)).
  { exact (digits_read (k :: ks) rest 0%Z H N). }
  unfold stoi. rewrite skip_white by exact Hs. cbv zeta.
  cbn in Hf. destruct Hf as [E|[E|[E|[]]]]; injection E as <- <-; cbn [app map].
  - cbn [skip_space]. rewrite W.
    assert (E : forall s, (match figure k :: s with "-"%char :: s' => (true, s') | "+"%char :: s' => (false, s') | _ => (false, figure k :: s) end) = (false, figure k :: s)).
    { intros s. clear - Hk0. do 10 (destruct k as [|k]; [reflexivity|]). lia. }
    rewrite E. cbv beta iota. rewrite D, V. cbv zeta. rewrite R, Z.mul_1_l. reflexivity.
  - change (skip_space ("+"%char :: figure k :: map figure ks ++ rest)) with ("+"%char :: figure k :: map figure ks ++ rest).
    cbv beta iota. rewrite D, V. rewrite R, Z.mul_1_l. reflexivity.
  - change (skip_space ("-"%char :: figure k :: map figure ks ++ rest)) with ("-"%char :: figure k :: map figure ks ++ rest).
    cbv beta iota. rewrite D, V. rewrite R. replace (-1 * number_of (k :: ks))%Z with (- number_of (k :: ks))%Z by lia. reflexivity.
Qed.
Example C45_numbers_case : stoi (list_ascii_of_string "  -209 x") = Some (-209)%Z /\ stoi (list_ascii_of_string "2147483648") = None /\
  list_ascii_of_string "  -209 x" = [" "; " "]%char ++ ["-"%char] ++ map figure [2; 0; 9]%nat ++ [" "; "x"]%char.
Proof. repeat split. Qed.
(* no number: a text without a digit behind white space and sign is an error *)
Theorem C45_no_number sp sign f rest : Forall (fun c => In c white) sp -> In (sign, f) signs -> f = (-1)%Z \/ sign = ["+"%char] ->
  (forall c r, rest = c :: r -> ~ In c figures) -> stoi (sp ++ sign ++ rest) = None.
Proof.
  intros Hs Hf Hx N. unfold stoi. rewrite skip_white by exact Hs.
  assert (D : match rest with c :: _ => digit c = None | [] => True end).
  { destruct rest as [|c r]; [exact I|]. destruct (digit c) eqn:E; [|reflexivity].
    exfalso. apply (N c r eq_refl). apply figure_all. congruence. }
  cbn in Hf. destruct Hf as [E|[E|[E|[]]]]; injection E as <- <-.
  - destruct Hx as [X|X]; discriminate X.
  - change (skip_space (["+"%char] ++ rest)) with ("+"%char :: rest). cbv beta iota zeta.
    destruct rest as [|c r]; [reflexivity|]. rewrite D. reflexivity.
  - change (skip_space (["-"%char] ++ rest)) with ("-"%char :: rest). cbv beta iota zeta.
    destruct rest as [|c r]; [reflexivity|]. rewrite D. reflexivity.
Qed.
Example C45_no_number_case : stoi (list_ascii_of_string " - 3") = None /\ stoi (list_ascii_of_string "x") = None.
Proof. split; reflexivity. Qed.

Print Assumptions C45_one_entry_per_line.
Print Assumptions C45_bad_line_is_an_error.
Print Assumptions C45_never_undefined.
Print Assumptions C45_lines.
Print Assumptions C45_last_line.
Print Assumptions C45_trailing_text_refuted.
Print Assumptions C45_numbers.
Print Assumptions C45_no_number.
