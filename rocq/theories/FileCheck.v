(* A test for the layout of a parameter file, used for the examples of C67. *)
From Coq Require Import Ascii String Lia.
From Verif Require Import Base CsvModel CsvProofs ParaModel ParaSpec ParaProofs ParaMatrix UtilModel BdryModel AppModel DomInModel DomInSpec FileModel FileSpec FileProofs FileBuild.
From Verif Require ParaProps.
Open Scope list_scope.
Open Scope nat_scope.

Definition spot (k l : text) : option nat := match last_occurrence (S (S (length l))) k l 0 None with Ok r => r | _ => None end.
Lemma spot_some k l q : spot k l = Some q -> last_at k l q.
Proof. unfold spot. destruct (last_in_line k l) as (r & -> & H). intros ->. exact H. Qed.
Definition mentionsb (k : string) (l : text) : bool := match spot (letters k) l with Some _ => true | None => false end.
Lemma mentionsb_iff k l : mentionsb k l = true <-> mentions k l.
Proof.
  unfold mentionsb, spot, mentions. destruct (last_in_line (letters k) l) as (r & -> & H). destruct r as [q|].
  - split; [intros _; exists q; apply H|reflexivity].
  - split; [discriminate|]. intros (i & O). destruct (H i O).
Qed.
Definition all_names : list pname :=
  [Prefix; Format; Vertices; Size; Colour; Algorithm; Refinements; Iterations; SmoothLayers; Layers; FixedVertices; FixedEdges] ++ map (Bdry true) ways ++ map (Bdry false) ways.
Lemma every_name n : In n all_names.
Proof. destruct n as [| | | | | | | | | | | |[] []]; cbn; tauto. Qed.
Definition nothing (l : text) : bool := forallb (fun m => negb (mentionsb (keyword m) l)) all_names.
Definition only (n : pname) (l : text) : bool := forallb (fun m => if name_dec m n then mentionsb (keyword m) l else negb (mentionsb (keyword m) l)) all_names.
Lemma nothing_ok l : nothing l = true -> forall m, ~ mentions (keyword m) l.
Proof. intros H m M. unfold nothing in H. rewrite forallb_forall in H. specialize (H m (every_name m)). apply mentionsb_iff in M. rewrite M in H. discriminate. Qed.
Lemma only_ok n l : only n l = true -> mentions (keyword n) l /\ forall m, mentions (keyword m) l -> m = n.
Proof.
  intros H. unfold only in H. rewrite forallb_forall in H. split.
  - specialize (H n (every_name n)). destruct (name_dec n n) as [_|C]; [apply mentionsb_iff, H|contradiction].
  - intros m M. specialize (H m (every_name m)). destruct (name_dec m n) as [E|_]; [exact E|]. apply mentionsb_iff in M. rewrite M in H. discriminate.
Qed.
Definition placedb (i : item) : bool :=
  match i with
  | Value n l => match ending n with None => only n l | Some _ => false end
  | Table n a rows b => match ending n with
      | Some e => only n a && forallb (fun l => negb (mentionsb e l)) rows && mentionsb e b && forallb nothing (rows ++ [b])
      | None => false end
  | Plain l => nothing l
  end.
Lemma placedb_ok i : placedb i = true -> placed i.
Proof.
  destruct i as [n l|n a rows b|l]; cbn [placedb placed].
  - destruct (ending n); [discriminate|]. intros H. split; [reflexivity|]. apply only_ok, H.
  - destruct (ending n) as [e|]; [|discriminate]. intros H. apply andb_prop in H. destruct H as [H H4]. apply andb_prop in H. destruct H as [H H3]. apply andb_prop in H. destruct H as [H1 H2].
    exists e. split; [reflexivity|]. destruct (only_ok n a H1) as [O1 O2]. split; [exact O1|]. split; [exact O2|]. rewrite forallb_forall in H2, H4. split.
    + intros l I M. specialize (H2 l I). apply mentionsb_iff in M. rewrite M in H2. discriminate.
    + split; [apply mentionsb_iff, H3|]. intros l m I. exact (nothing_ok l (H4 l I) m).
  - apply nothing_ok.
Qed.
Definition well_formedb (s : section) : bool :=
  forallb (fun l => negb (mentionsb "Define mesh:" l)) (se_before s) && mentionsb "Define mesh:" (se_open s) && nothing (se_open s) && forallb placedb (se_items s) &&
  forallb (fun l => negb (mentionsb "End mesh" l)) (flat_map lines (se_items s)) && mentionsb "End mesh" (se_close s) && negb (mentionsb "Define mesh:" (se_close s)).
Lemma silent_lines k ls : forallb (fun l => negb (mentionsb k l)) ls = true -> forall l, In l ls -> ~ mentions k l.
Proof. intros H l I M. rewrite forallb_forall in H. specialize (H l I). apply mentionsb_iff in M. rewrite M in H. discriminate. Qed.
Lemma well_formedb_ok s : well_formedb s = true -> well_formed s.
Proof.
  unfold well_formedb. intros H. do 6 (apply andb_prop in H; destruct H as [H ?]). constructor.
  - apply silent_lines, H.
  - apply mentionsb_iff. assumption.
  - apply nothing_ok. assumption.
  - apply Forall_forall. intros i I. apply placedb_ok. match goal with X : forallb placedb _ = true |- _ => rewrite forallb_forall in X; exact (X i I) end.
  - apply silent_lines. assumption.
  - apply mentionsb_iff. assumption.
  - intros M. apply mentionsb_iff in M. match goal with X : negb _ = true |- _ => rewrite M in X; discriminate end.
Qed.

Definition text_eqb (a b : text) : bool := if list_eq_dec ascii_dec a b then true else false.
Lemma text_same a b : text_eqb a b = true -> a = b.
Proof. unfold text_eqb. destruct (list_eq_dec ascii_dec a b); [auto|discriminate]. Qed.
Definition has_comma (c : text) : bool := if in_dec ascii_dec ","%char c then true else false.
Definition good_cells (line : text) : option (list text) :=
  let cs := cells_of line in
  if (text_eqb line (separated cs) || text_eqb line (separated cs ++ [","%char])) && negb (text_eqb (last cs []) []) && forallb (fun c => negb (has_comma c)) cs
  then Some cs else None.
Lemma good_cells_ok line cs : good_cells line = Some cs -> closed (separated cs) line /\ cs <> [] /\ last cs [] <> [] /\ forall c, In c cs -> ~ In ","%char c.
Proof.
  unfold good_cells. destruct ((_ || _) && _ && _) eqn:E; [|discriminate]. intros H. injection H as <-. apply andb_prop in E. destruct E as [E E3]. apply andb_prop in E. destruct E as [E1 E2].
  assert (L : last (cells_of line) [] <> []). { intros L. rewrite L in E2. discriminate. }
  split; [apply orb_prop in E1; destruct E1 as [E1|E1]; [left|right]; apply text_same, E1|]. split; [intros Z; rewrite Z in L; contradiction|]. split; [exact L|].
  intros c I J. rewrite forallb_forall in E3. specialize (E3 c I). unfold has_comma in E3. destruct (in_dec ascii_dec ","%char c); [discriminate|contradiction].
Qed.
Definition some {A} (o : option A) : bool := match o with Some _ => true | None => false end.
Lemma some_ok {A} (o : option A) : some o = true -> exists a, o = Some a.
Proof. destruct o; [eauto|discriminate]. Qed.
Definition full_rowb {T} (conv : text -> option T) (n : nat) (line : text) : bool :=
  match good_cells line with Some cs => forallb (fun c => some (conv (clean_cell c))) cs && Nat.eqb (length cs) n | None => false end.
Definition filled_rowb (n : nat) (line : text) : bool := match good_cells line with Some cs => Nat.leb (length cs) n | None => false end.
Lemma full_rowb_ok {T} (conv : text -> option T) n line : full_rowb conv n line = true -> exists vs, full_row conv n line vs.
Proof.
  unfold full_rowb. destruct (good_cells line) as [cs|] eqn:G; [|discriminate]. intros H. apply andb_prop in H. destruct H as [H1 H2]. apply Nat.eqb_eq in H2.
  destruct (good_cells_ok _ _ G) as (C & N & L & F). assert (X : exists vs, Forall2 (fun c v => exists t, unbracketed c t /\ conv t = Some v) cs vs).
  { apply pick_rows. intros c I. rewrite forallb_forall in H1. destruct (some_ok _ (H1 c I)) as (v & V). exists v, (clean_cell c). split; [apply unbracketed_iff; reflexivity|exact V]. }
  destruct X as (vs & X). exists vs, (separated cs). split; [exact C|]. split; [exists cs; auto|]. rewrite <- H2. clear - X. induction X; cbn [length]; congruence.
Qed.
Lemma filled_rowb_ok to_double n line : filled_rowb n line = true -> exists vs, filled_row to_double n line vs.
Proof.
  unfold filled_rowb. destruct (good_cells line) as [cs|] eqn:G; [|discriminate]. intros H. apply Nat.leb_le in H. destruct (good_cells_ok _ _ G) as (C & N & L & F).
  assert (X : exists us, Forall2 (fun c v => exists t, unbracketed c t /\ (to_double t = Some v \/ to_double t = None /\ v = (-(1))%Q)) cs us).
  { apply pick_rows. intros c I. destruct (to_double (clean_cell c)) as [v|] eqn:V; [exists v|exists (-(1))%Q]; exists (clean_cell c); (split; [apply unbracketed_iff; reflexivity|]); [left; exact V|right; auto]. }
  destruct X as (us & X). exists (us ++ repeat (-(1))%Q (n - length us)), (separated cs). split; [exact C|]. exists cs, us. auto 10.
Qed.
Definition value_at (n : pname) (l : text) : option text := option_map (value_text (letters (keyword n)) l) (spot (letters (keyword n)) l).
Lemma value_at_ok n l t : value_at n l = Some t -> value_of (letters (keyword n)) l t.
Proof.
  unfold value_at. destruct (spot _ l) as [q|] eqn:S; [|discriminate]. intros H. apply spot_some in S. apply (value_text_spec _ _ _ S). cbn in H. congruence.
Qed.
Definition saysb {T} (conv : text -> option T) (i : item) : bool :=
  match i with Value n l => match value_at n l with Some t => some (conv t) | None => false end | _ => false end.
Lemma saysb_ok {T} (conv : text -> option T) i : saysb conv i = true -> exists v, says conv i v.
Proof.
  destruct i as [n l| |]; try discriminate. cbn [saysb says]. destruct (value_at n l) as [t|] eqn:V; [|discriminate]. intros H. apply some_ok in H. destruct H as (v & H).
  exists v, t. split; [apply value_at_ok, V|exact H].
Qed.
Definition rowsb (R : nat -> text -> bool) (i : item) : bool :=
  match i with
  | Value n l => match value_at n l with Some t => R (width n) t | None => false end
  | Table n _ ls _ => negb (Nat.eqb (length ls) 0) && forallb (R (width n)) ls
  | Plain _ => false
  end.
Lemma rowsb_ok {T} R (S : nat -> text -> list T -> Prop) i : (forall n l, R n l = true -> exists vs, S n l vs) -> rowsb R i = true -> exists rows, gives_rows S i rows.
Proof.
  intros H. destruct i as [n l|n a ls b|l]; cbn [rowsb gives_rows]; [..|discriminate].
  - destruct (value_at n l) as [t|] eqn:V; [|discriminate]. intros G. destruct (H _ _ G) as (vs & X). exists [vs], t, vs. split; [apply value_at_ok, V|auto].
  - intros G. apply andb_prop in G. destruct G as [G1 G2]. rewrite forallb_forall in G2. destruct (pick_rows (S (width n)) ls) as (rows & X); [intros l I; apply H, G2, I|].
    exists rows. split; [destruct ls; [discriminate|discriminate]|exact X].
Qed.

Section Check.
Variable to_double : text -> option Q.
Definition readableb (i : item) : bool :=
  match i with
  | Plain _ => true
  | Value n _ | Table n _ _ _ =>
      match n with
      | Prefix | Format | Size | Algorithm | Bdry _ KCsv => saysb to_text i
      | Colour => saysb to_integer i
      | Refinements | Iterations => saysb to_count i
      | SmoothLayers => saysb to_bool i
      | FixedEdges | Bdry _ KEdges => rowsb (full_rowb to_integer) i
      | Layers => rowsb (full_rowb to_double) i
      | _ => rowsb filled_rowb i
      end
  end.
Lemma readableb_ok i : readableb i = true -> readable to_double i.
Proof.
  destruct i as [n l|n a ls b|l]; [..|exact (fun _ => I)]; destruct n as [| | | | | | | | | | | |e []]; cbn [readableb readable]; intros H;
    first [exact (saysb_ok _ _ H)|exact (rowsb_ok (full_rowb to_integer) _ _ (full_rowb_ok to_integer) H)|exact (rowsb_ok (full_rowb to_double) _ _ (full_rowb_ok to_double) H)|exact (rowsb_ok filled_rowb _ _ (filled_rowb_ok to_double) H)].
Qed.
Definition completeb (is : list item) : bool := forallb (fun n => negb (Nat.eqb (length (named n is)) 0)) [Prefix; Format; Size].
Lemma completeb_ok is : completeb is = true -> complete is.
Proof. intros H n I E. unfold completeb in H. rewrite forallb_forall in H. specialize (H n I). rewrite E in H. discriminate. Qed.
Fixpoint strip (raw : list text) : list text := match raw with [] => [] | l :: r => if is_comment l then strip r else l :: strip r end.
Lemma strip_ok raw : stripped raw (strip raw).
Proof.
  induction raw as [|l raw IH]; [constructor|]. cbn [strip]. destruct (is_comment l) eqn:C.
  - constructor; [apply ParaProps.is_comment_iff, C|exact IH].
  - constructor; [intros X; apply ParaProps.is_comment_iff in X; congruence|exact IH].
Qed.
Definition has_newline (l : text) : bool := if in_dec ascii_dec newline l then true else false.
Definition fileb (raw : list text) (ss : list section) (final : list text) : bool :=
  forallb (fun l => negb (has_newline l)) raw && (if list_eq_dec (list_eq_dec ascii_dec) (strip raw) (flat_map section_lines ss ++ final) then true else false) &&
  forallb (fun l => negb (mentionsb "Define mesh:" l)) final && forallb well_formedb ss && forallb (fun s => forallb readableb (se_items s) && completeb (se_items s)) ss.
Lemma fileb_ok raw ss final : fileb raw ss final = true -> file_of to_double (joined newline raw) ss.
Proof.
  unfold fileb. intros H. do 4 (apply andb_prop in H; destruct H as [H ?]). exists raw, (strip raw), final. split; [split; [|left; reflexivity]|].
  - apply Forall_forall. intros l I J. rewrite forallb_forall in H. specialize (H l I). unfold has_newline in H. destruct (in_dec ascii_dec newline l); [discriminate|contradiction].
  - split; [apply strip_ok|]. split; [destruct (list_eq_dec _ _ _); [assumption|discriminate]|]. split; [apply silent_lines; assumption|].
    split; apply Forall_forall; intros s I; match goal with X : forallb _ ss = true, Y : forallb _ ss = true |- _ => rewrite forallb_forall in X, Y; assert (X1 := X s I); assert (Y1 := Y s I) end.
    + first [apply well_formedb_ok; assumption|idtac].
    + match goal with X : _ && _ = true |- _ => apply andb_prop in X; destruct X as [X Z] end. split; [|apply completeb_ok; assumption].
      apply Forall_forall. intros i J. apply readableb_ok. match goal with X : forallb readableb _ = true |- _ => rewrite forallb_forall in X; exact (X i J) end.
Qed.
Definition draftb (raw : list text) (ss : list section) (final : list text) : bool :=
  forallb (fun l => negb (has_newline l)) raw && (if list_eq_dec (list_eq_dec ascii_dec) (strip raw) (flat_map section_lines ss ++ final) then true else false) &&
  forallb (fun l => negb (mentionsb "Define mesh:" l)) final && forallb well_formedb ss && forallb (fun s => forallb readableb (se_items s)) ss.
Lemma draftb_ok raw ss final : draftb raw ss final = true -> drafted to_double (joined newline raw) ss.
Proof.
  unfold draftb. intros H. do 4 (apply andb_prop in H; destruct H as [H ?]). exists raw, (strip raw), final. split; [split; [|left; reflexivity]|].
  - apply Forall_forall. intros l I J. rewrite forallb_forall in H. specialize (H l I). unfold has_newline in H. destruct (in_dec ascii_dec newline l); [discriminate|contradiction].
  - split; [apply strip_ok|]. split; [destruct (list_eq_dec _ _ _); [assumption|discriminate]|]. split; [apply silent_lines; assumption|].
    split; apply Forall_forall; intros s I; match goal with X : forallb _ ss = true, Y : forallb _ ss = true |- _ => rewrite forallb_forall in X, Y; assert (X1 := X s I); assert (Y1 := Y s I) end.
    + first [apply well_formedb_ok; assumption|idtac].
    + apply Forall_forall. intros i J. apply readableb_ok. match goal with X : forallb readableb _ = true |- _ => rewrite forallb_forall in X; exact (X i J) end.
Qed.
End Check.
Lemma filled_is to_double n line vs : filled_rowb n line = true -> line_values Q to_double (Some (-(1))%Q) n line = vs -> filled_row to_double n line vs.
Proof. intros B E. destruct (filled_rowb_ok to_double n line B) as (us & U). destruct (filled_read to_double n line us U) as [V _]. rewrite <- E, V. exact U. Qed.
