From Coq Require Import Ascii String Lia.
From Verif Require Import Base BdryProofs CsvModel.

(* ---- specification, without reference to the reader's loop ---- *)
(* the characters of a file are the lines joined by line ends *)
Fixpoint joined (d : ascii) (ls : list text) : text :=
  match ls with [] => [] | l :: ls' => l ++ d :: joined d ls' end.
Definition free (d : ascii) (l : text) : Prop := ~ In d l.

Section Spec.
Variable stod : text -> option Q.
(* what a well formed line is: [cells] its comma separated cells *)
Definition number_at (cells : list text) (i : nat) : option Q :=
  match nth_error cells i with Some c => stod c | None => Some 0%Q end.
Definition well_formed (cells : list text) (r : row) : Prop :=
  (2 <= length cells)%nat /\
  number_at cells 0 = Some (vx (r_coord r)) /\ number_at cells 1 = Some (vy (r_coord r)) /\
  (exists c, nth_error cells 2 = Some c /\ stoi c = Some (r_color r) /\ (0 <= r_color r)%Z) /\
  number_at cells 3 = Some (vx (r_prop r)) /\ number_at cells 4 = Some (vy (r_prop r)).

Lemma read_rest cells : forall i r, (5 <= i)%nat -> read_cells stod i cells r = Some (i + length cells, r)%nat.
Proof.
  induction cells as [|c cells IH]; intros i r H; cbn [read_cells length].
  - rewrite Nat.add_0_r. reflexivity.
  - do 5 (destruct i as [|i]; [lia|]). cbn [read_cell]. rewrite IH by lia. f_equal. f_equal. lia.
Qed.

Lemma read_line_ok line r : read_line stod line = Ok r <-> well_formed (cells_of line) r.
Proof.
  unfold read_line, well_formed, number_at. set (cells := cells_of line). clearbody cells.
  destruct r as [[x y] [px py] col]. cbn [r_coord r_prop r_color vx vy].
  destruct cells as [|c0 cells]; [cbn; split; [discriminate|]; intros (H & _); cbn in H; lia|].
  cbn [read_cells read_cell nth_error]. destruct (stod c0) as [x0|]; cbn [option_map];
    [|split; [discriminate|]; intros (_ & H & _); discriminate].
  destruct cells as [|c1 cells]; [cbn; split; [discriminate|]; intros (H & _); cbn in H; lia|].
  cbn [read_cells read_cell nth_error]. destruct (stod c1) as [y0|]; cbn [option_map];
    [|split; [discriminate|]; intros (_ & _ & H & _); discriminate].
  destruct cells as [|c2 cells]; [cbn; split; [discriminate|]; intros (_ & _ & _ & (c & H & _) & _); discriminate|].
  cbn [read_cells read_cell nth_error]. destruct (stoi c2) as [k|] eqn:Ek; cbn [option_map];
    [|split; [discriminate|]; intros (_ & _ & _ & (c & H & H1 & _) & _); injection H as <-; congruence].
  assert (L : forall n : nat, Nat.ltb (S (S n)) 2 = false) by (intros; apply Nat.ltb_ge; lia).
  destruct cells as [|c3 cells].
  { cbn [read_cells nth_error]. rewrite L. cbn [r_color r_coord r_prop vx vy]. destruct (Z.ltb_spec k 0).
    - split; [discriminate|]. intros (_ & _ & _ & (c & A & B & D) & _). injection A as <-. rewrite Ek in B. injection B as <-. lia.
    - split.
      + intros E. injection E as <- <- <- <- <-. repeat split; try (cbn; lia). exists c2. auto.
      + intros (_ & A & B & (c & C & D & F) & G & I). injection A as <-. injection B as <-. injection G as <-. injection I as <-.
        injection C as <-. rewrite Ek in D. injection D as <-. reflexivity. }
  cbn [read_cells read_cell nth_error]. destruct (stod c3) as [p0|]; cbn [option_map];
    [|split; [discriminate|]; intros (_ & _ & _ & _ & H & _); discriminate].
  destruct cells as [|c4 cells].
  { cbn [read_cells nth_error]. rewrite L. cbn [r_color r_coord r_prop vx vy]. destruct (Z.ltb_spec k 0).
    - split; [discriminate|]. intros (_ & _ & _ & (c & A & B & D) & _). injection A as <-. rewrite Ek in B. injection B as <-. lia.
    - split.
      + intros E. injection E as <- <- <- <- <-. repeat split; try (cbn; lia). exists c2. auto.
      + intros (_ & A & B & (c & C & D & F) & G & I). injection A as <-. injection B as <-. injection G as <-. injection I as <-.
        injection C as <-. rewrite Ek in D. injection D as <-. reflexivity. }
  cbn [read_cells read_cell nth_error]. destruct (stod c4) as [q0|]; cbn [option_map];
    [|split; [discriminate|]; intros (_ & _ & _ & _ & _ & H); discriminate].
  rewrite read_rest by lia. cbn [Nat.add]. rewrite L. cbn [r_color r_coord r_prop vx vy]. destruct (Z.ltb_spec k 0).
  - split; [discriminate|]. intros (_ & _ & _ & (c & A & B & D) & _). injection A as <-. rewrite Ek in B. injection B as <-. lia.
  - split.
    + intros E. injection E as <- <- <- <- <-. repeat split; try (cbn; lia). exists c2. auto.
    + intros (_ & A & B & (c & C & D & F) & G & I). injection A as <-. injection B as <-. injection G as <-. injection I as <-.
      injection C as <-. rewrite Ek in D. injection D as <-. reflexivity.
Qed.

Lemma read_line_no_ub line : read_line stod line <> UB.
Proof.
  unfold read_line. destruct (read_cells _ _ _ _) as [[n r]|]; [|discriminate].
  destruct (Nat.ltb n 2); [discriminate|]. destruct (_ <? _)%Z; discriminate.
Qed.

Lemma read_rows_ok ls rs : read_rows stod ls = Ok rs <-> Forall2 (fun l r => well_formed (cells_of l) r) ls rs.
Proof.
  revert rs. induction ls as [|l ls IH]; intros rs; cbn [read_rows].
  - split; [intros E; injection E as <-; constructor|]. intros H. inversion H. reflexivity.
  - split.
    + destruct (read_line stod l) as [r| |] eqn:E; cbn [obind]; try discriminate.
      destruct (read_rows stod ls) as [rs'| |]; cbn [obind]; try discriminate. intros X. injection X as <-.
      constructor; [apply read_line_ok; exact E|apply IH; reflexivity].
    + intros H. inversion H as [|? r ? rs' H1 H2]; subst. apply read_line_ok in H1. rewrite H1. cbn [obind].
      apply IH in H2. rewrite H2. reflexivity.
Qed.
Lemma read_rows_no_ub ls : read_rows stod ls <> UB.
Proof.
  induction ls as [|l ls IH]; cbn [read_rows]; [discriminate|].
  destruct (read_line stod l) eqn:E; cbn [obind]; [|destruct (read_line_no_ub _ E)|discriminate].
  destruct (read_rows stod ls); cbn [obind]; congruence.
Qed.

(* the reader fails exactly if some line is not well formed *)
Lemma read_rows_throw ls : read_rows stod ls = Throw <-> exists l, In l ls /\ forall r, ~ well_formed (cells_of l) r.
Proof.
  induction ls as [|l ls IH]; cbn [read_rows].
  - split; [discriminate|intros (l & [] & _)].
  - destruct (read_line stod l) as [r| |] eqn:E; cbn [obind].
    + assert (W : well_formed (cells_of l) r) by (apply read_line_ok; exact E).
      destruct (read_rows stod ls) as [rs| |] eqn:F; cbn [obind].
      * split; [discriminate|]. intros (m & [<-|Hm] & Hw); [destruct (Hw r W)|].
        assert (X : @Ok (list row) rs = Throw) by (apply IH; exists m; auto). discriminate X.
      * destruct (read_rows_no_ub _ F).
      * split; [intros _|reflexivity]. destruct (proj1 IH eq_refl) as (m & Hm & Hw). exists m. split; [right; exact Hm|exact Hw].
    + destruct (read_line_no_ub _ E).
    + split; [intros _|reflexivity]. exists l. split; [left; reflexivity|]. intros r W. apply read_line_ok in W. congruence.
Qed.

Lemma read_csv_ok s cs ps ks : read_csv stod (Some s) = Ok (cs, ps, ks) <->
  exists rs, Forall2 (fun l r => well_formed (cells_of l) r) (lines_of s) rs /\
    cs = map r_coord rs /\ ps = map r_prop rs /\ ks = map r_color rs.
Proof.
  unfold read_csv. split.
  - destruct (read_rows stod (lines_of s)) as [rs| |] eqn:E; cbn [obind]; try discriminate.
    intros X. injection X as <- <- <-. exists rs. split; [apply read_rows_ok; exact E|auto].
  - intros (rs & H & -> & -> & ->). apply read_rows_ok in H. rewrite H. reflexivity.
Qed.
Lemma read_csv_throw s : read_csv stod (Some s) = Throw <->
  exists l, In l (lines_of s) /\ forall r, ~ well_formed (cells_of l) r.
Proof.
  unfold read_csv. rewrite <- read_rows_throw.
  destruct (read_rows stod (lines_of s)); cbn [obind]; split; congruence.
Qed.
End Spec.

(* getline undoes joining *)
Lemma getlines_app d l rest : free d l -> forall cur, getlines d cur (l ++ d :: rest) = (rev cur ++ l) :: getlines d [] rest.
Proof.
  induction l as [|c l IH]; intros H cur; cbn [app getlines].
  - rewrite Ascii.eqb_refl, app_nil_r. reflexivity.
  - destruct (Ascii.eqb_spec c d) as [->|N]; [exfalso; apply H; left; reflexivity|].
    rewrite IH by (intros X; apply H; right; exact X). cbn [rev]. rewrite <- app_assoc. reflexivity.
Qed.
Lemma getlines_joined d ls : Forall (free d) ls -> getlines d [] (joined d ls) = ls.
Proof.
  intros H. induction H as [|l ls Hl _ IH]; [reflexivity|]. cbn [joined]. rewrite getlines_app by exact Hl.
  cbn [rev app]. rewrite IH. reflexivity.
Qed.
Lemma getlines_last d l : free d l -> forall cur, l <> [] \/ cur <> [] -> getlines d cur l = [rev cur ++ l].
Proof.
  induction l as [|c l IH]; intros H cur N; cbn [getlines].
  - destruct cur; [tauto|]. rewrite app_nil_r. reflexivity.
  - destruct (Ascii.eqb_spec c d) as [->|N']; [exfalso; apply H; left; reflexivity|].
    rewrite IH; [|intros X; apply H; right; exact X|right; discriminate]. cbn [rev]. rewrite <- app_assoc. reflexivity.
Qed.
(* the last line may lack its line end *)
Lemma getlines_joined_last d ls l : Forall (free d) ls -> free d l -> l <> [] -> getlines d [] (joined d ls ++ l) = ls ++ [l].
Proof.
  intros H. induction H as [|k ls Hk _ IH]; intros Hl Hn; cbn [joined app].
  - rewrite getlines_last by auto. reflexivity.
  - rewrite <- app_assoc. cbn [app]. rewrite getlines_app by exact Hk. rewrite IH by auto. reflexivity.
Qed.
