(* C67: the application takes from a parameter file exactly what stands in it. *)
From Coq Require Import Ascii String Lia.
From Verif Require Import Base CsvModel CsvProofs ParaModel ParaSpec UtilModel BdryModel AppModel DomInModel DomInSpec FileModel FileSpec FileProofs FileBuild FileCheck FileExamples FileWords.
Open Scope list_scope.
Open Scope nat_scope.

(* ---- from the text to the inputs of the blocks ---- *)
Theorem C67_read : forall to_double files file ss, file_of to_double file ss ->
  exists xs, read_file to_double files file = Ok xs /\ Forall2 (fun s x => means to_double files (se_items s) x) ss xs.
Proof. intros to_double files file ss F. exact (file_read to_double files file ss F). Qed.
Example C67_read_case : file_of decimal (joined newline channel_lines) channel_sections /\ file_of decimal (joined newline merged_lines) merged_sections.
Proof. split; [apply (fileb_ok decimal _ _ channel_final)|apply (fileb_ok decimal _ _ merged_final)]; vm_compute; reflexivity. Qed.
Example C67_channel_case : match read_file decimal no_files (joined newline channel_lines) with
  | Ok [x] => in_prefix x = txt "./square_in_channel" /\ in_format x = txt "VTU" /\ in_size x = txt "0.1" /\ in_colour x = 1%Z /\ in_algorithm x = txt "Tri-to-Quad" /\
      in_refinements x = 1%Z /\ in_iterations x = 3%Z /\ in_smooth x = true /\ length (in_layers x) = 3 /\ length (in_interior x) = 1 /\
      match in_vertices x, in_exterior x with
      | Some p, Some (DEdges q) => pr_nrow p = 8 /\ get_value p 1 6 = Some (13 # 20)%Q /\ get_value p 3 0 = Some (-(1))%Q /\ pr_nrow q = 4 /\ get_value q 2 1 = Some 3%Z
      | _, _ => False
      end
  | _ => False
  end.
Proof. vm_compute. repeat split. Qed.
Example C67_merged_case : match read_file decimal no_files (joined newline merged_lines) with
  | Ok [x; y] => in_colour x = 1%Z /\ in_colour y = 2%Z /\ in_size y = txt "0.02+0.2*(pow(x-2.5,2)+pow(y-2.5,2))" /\ in_interior y = [] /\ length (in_layers x) = 2 /\ in_layers y = []
  | _ => False
  end.
Proof. vm_compute. repeat split. Qed.

(* a block without one of the three values that it must have is an error, whatever else is in the file *)
Theorem C67_mandatory : forall to_double files file ss, drafted to_double file ss -> (exists s, In s ss /\ ~ complete (se_items s)) ->
  read_file to_double files file = Throw.
Proof. exact file_refused. Qed.
Example C67_mandatory_case : let s := SE [] (txt "Define mesh:") (map (fun p => Value (fst p) (txt (snd p))) [(Prefix, "Output file prefix: a"); (Format, "Output file format: VTU")]%string) (txt "End mesh") in
  drafted decimal (joined newline (merged_lines ++ map txt ["Define mesh:"; "Output file prefix: a"; "Output file format: VTU"; "End mesh"]%string)) (merged_sections ++ [SE merged_final (txt "Define mesh:") (se_items s) (txt "End mesh")]) /\
  ~ complete (se_items s).
Proof. cbv zeta. split; [apply (draftb_ok decimal _ _ []); vm_compute; reflexivity|]. intros C. exact (C Size (or_intror (or_intror (or_introl eq_refl))) eq_refl). Qed.

(* single values: a text is its first word, numbers are the decimal numbers in front, a flag is 0 or 1 *)
Theorem C67_words : (forall s w, to_text s = Some w <-> first_word s w) /\
  (forall s z, to_integer s = Some z <-> exists neg v, first_number s neg v /\ z = signed neg v /\ (-2147483648 <= z <= 2147483647)%Z) /\
  (forall s b, to_bool s = Some b <-> if b then first_number s false 1%Z else exists neg, first_number s neg 0%Z) /\
  (forall s z, to_count s = Some z <-> exists neg v, first_number s neg v /\ (v <= 18446744073709551615)%Z /\ z = (signed neg v mod 18446744073709551616)%Z).
Proof.
  split; [exact text_word|]. split; [exact integer_iff|]. split; [exact flag_iff|exact count_iff].
Qed.
Example C67_words_case : first_word (txt "  big model") (txt "big") /\ first_number (txt " -12mm") true 12%Z /\ first_number (txt "1 # set") false 1%Z.
Proof.
  split; [|split].
  - exists (txt "  "), (txt " model"). split; [reflexivity|]. split; [discriminate|]. split; [repeat constructor|]. split; [repeat constructor; unfold blank; cbn; lia|]. right. eexists. eexists. split; [reflexivity|left; reflexivity].
  - exists (txt " "), (txt "-"), (txt "12"), (txt "mm"). split; [reflexivity|]. split; [repeat constructor|]. split; [left; split; reflexivity|]. split; [discriminate|].
    split; [repeat constructor; unfold numeric; cbn; lia|]. split; [|reflexivity]. intros (c & r & E & N). injection E as <- _. unfold numeric in N. cbn in N. lia.
  - exists [], [], (txt "1"), (txt " # set"). split; [reflexivity|]. split; [constructor|]. split; [right; split; [left|]; reflexivity|]. split; [discriminate|].
    split; [repeat constructor; unfold numeric; cbn; lia|]. split; [|reflexivity]. intros (c & r & E & N). injection E as <- _. unfold numeric in N. cbn in N. lia.
Qed.

(* only the order of the items of the same name counts *)
Theorem C67_order : forall to_double files is is' x, (forall n, named n is = named n is') ->
  means to_double files is x <-> means to_double files is' x.
Proof.
  intros to_double files. assert (H : forall is is' x, (forall n, named n is = named n is') -> means to_double files is x -> means to_double files is' x).
  { intros is is' x E [M1 M2 M3 M4 M5 M6 M7 M8 M9 M10 M11 M12 M13 M14].
    assert (B : forall e, boundaries e is = boundaries e is') by (intros e; unfold boundaries; apply flat_map_ext; intros k; apply E).
    unfold first_says, first_rows in *. rewrite ?B, ?E in *. constructor; unfold first_says, first_rows; rewrite <- ?B; try assumption; rewrite B; assumption. }
  intros is is' x E. split; apply H; [exact E|intros n; symmetry; apply E].
Qed.
Example C67_order_case : let a := Value Size (txt "Element size: 1") in let b := Value Format (txt "Output file format: VTU") in let c := Value Size (txt "Element size: 2") in
  (forall n, named n [a; b; c] = named n [a; c; b]) /\ named Size [a; b; c] <> named Size [c; b; a].
Proof. split; [intros n; destruct n as [| | | | | | | | | | | |[] []]; reflexivity|discriminate]. Qed.

(* what a block means is fixed by its items *)
Definition same_values {T} (n : nat) (p q : para T) : Prop := pr_nrow p = pr_nrow q /\ forall i j, i < n -> j < pr_nrow p -> get_value p i j = get_value q i j.
Definition same_definition (d d' : definition) : Prop :=
  match d, d' with
  | DEdges p, DEdges q => same_values 3 p q
  | DCoords p, DCoords q => same_values 5 p q
  | DRect p, DRect q | DCirc p, DCirc q => same_values 7 p q
  | DSquare p, DSquare q | DTriangle p, DTriangle q => same_values 6 p q
  | DCsv f, DCsv f' => f = f'
  | _, _ => False
  end.
Definition both {A} (R : A -> A -> Prop) (a b : option A) : Prop := match a, b with Some x, Some y => R x y | None, None => True | _, _ => False end.
Lemma first_one {T} (conv : text -> option T) n is d v v' : first_says conv n is d v -> first_says conv n is d v' -> v = v'.
Proof. unfold first_says. destruct (named n is) as [|i r]; [congruence|apply says_one]. Qed.
Lemma pair_one {A B} (R : A -> B -> Prop) (S : B -> B -> Prop) : forall l m m', (forall a b b', In a l -> R a b -> R a b' -> S b b') -> Forall2 R l m -> Forall2 R l m' -> Forall2 S m m'.
Proof.
  intros l m m' H F. revert m'. induction F as [|a b l m X F IH]; intros m' G; inversion G; subst; constructor.
  - apply (H a); [left; reflexivity|assumption..].
  - apply IH; [intros a1 b1 b2 I; apply H; right; exact I|assumption].
Qed.
Lemma table_one {T} (R : nat -> text -> list T -> Prop) n is i (p q : para T) : (forall n t vs vs', R n t vs -> R n t vs' -> vs = vs') -> (forall t vs, R (width n) t vs -> length vs = width n) -> In i (named n is) ->
  (exists rows, gives_rows R i rows /\ holds p rows) -> (exists rows, gives_rows R i rows /\ holds q rows) -> same_values (width n) p q.
Proof.
  intros ONE LEN I (rows & G & H) (rows' & G' & H'). rewrite (rows_one R i rows' rows ONE G' G) in H'. apply filter_In in I. destruct I as [_ N]. apply named_name in N.
  destruct (rows_shape R n i rows LEN N G) as [_ F]. exact (holds_same _ p q rows H H' F).
Qed.
Lemma first_table to_double n is p q : first_rows to_double n is p -> first_rows to_double n is q -> both (same_values (width n)) p q.
Proof.
  unfold first_rows. destruct (named n is) as [|i more] eqn:N; [intros -> ->; exact I|]. intros (p' & rows & -> & G & H) (q' & rows' & -> & G' & H'). cbn [both].
  apply (table_one (filled_row to_double) n is i); [apply filled_one|intros t vs X; apply (filled_read to_double _ t vs X)|rewrite N; left; reflexivity|eauto|eauto].
Qed.
Lemma definition_one to_double files i d d' : defines to_double files i d -> defines to_double files i d' -> same_definition d d'.
Proof.
  intros A B. assert (K := kinds_same to_double files _ _ _ A B). destruct (defines_kind to_double files _ _ A) as (e & N). destruct A as (_ & A), B as (_ & B).
  destruct d, d'; try discriminate; cbn [same_definition kind_of] in *.
  - destruct A as (r1 & A1 & A2), B as (r2 & B1 & B2). exact (integers_same e i r1 r2 _ _ N A1 A2 B1 B2).
  - destruct A as (r1 & A1 & A2), B as (r2 & B1 & B2). destruct (numbers_same to_double _ _ _ _ _ _ _ N A1 A2 B1 B2) as (X & _ & Y). split; [exact X|destruct e; exact Y].
  - destruct A as (r1 & A1 & A2), B as (r2 & B1 & B2). destruct (numbers_same to_double _ _ _ _ _ _ _ N A1 A2 B1 B2) as (X & _ & Y). split; [exact X|destruct e; exact Y].
  - destruct A as (r1 & A1 & A2), B as (r2 & B1 & B2). destruct (numbers_same to_double _ _ _ _ _ _ _ N A1 A2 B1 B2) as (X & _ & Y). split; [exact X|destruct e; exact Y].
  - destruct A as (r1 & A1 & A2), B as (r2 & B1 & B2). destruct (numbers_same to_double _ _ _ _ _ _ _ N A1 A2 B1 B2) as (X & _ & Y). split; [exact X|destruct e; exact Y].
  - destruct A as (r1 & A1 & A2), B as (r2 & B1 & B2). destruct (numbers_same to_double _ _ _ _ _ _ _ N A1 A2 B1 B2) as (X & _ & Y). split; [exact X|destruct e; exact Y].
  - destruct A as (w & A1 & A2), B as (w' & B1 & B2). rewrite (says_one _ _ _ _ A1 B1) in A2. congruence.
Qed.
Theorem C67_unique : forall to_double files is x y, means to_double files is x -> means to_double files is y ->
  (in_prefix x = in_prefix y /\ in_format x = in_format y /\ in_size x = in_size y /\ in_colour x = in_colour y /\ in_algorithm x = in_algorithm y /\
   in_refinements x = in_refinements y /\ in_iterations x = in_iterations y /\ in_smooth x = in_smooth y) /\
  both (same_values 4) (in_vertices x) (in_vertices y) /\ both (same_values 4) (in_fixed x) (in_fixed y) /\
  both same_definition (in_exterior x) (in_exterior y) /\ Forall2 same_definition (in_interior x) (in_interior y) /\
  Forall2 (same_values 2) (in_edges x) (in_edges y) /\ Forall2 (same_values 7) (in_layers x) (in_layers y).
Proof.
  intros to_double files is x y [A1 A2 A3 A4 A5 A6 A7 A8 A9 A10 A11 A12 A13 A14] [B1 B2 B3 B4 B5 B6 B7 B8 B9 B10 B11 B12 B13 B14].
  split; [repeat split; eapply first_one; eassumption|]. split; [exact (first_table to_double Vertices is _ _ A4 B4)|]. split; [exact (first_table to_double FixedVertices is _ _ A5 B5)|].
  split; [|split; [|split]].
  - destruct (boundaries true is) as [|i more]; [rewrite A6, B6; exact I|]. destruct A6 as (d & -> & D), B6 as (d' & -> & D'). exact (definition_one to_double files i d d' D D').
  - refine (pair_one _ _ _ _ _ _ A7 B7). intros i d d' _. apply definition_one.
  - refine (pair_one _ _ _ _ _ _ A8 B8). intros i p q J P P'. apply (table_one (full_row to_integer) FixedEdges is i); [apply full_one|intros t vs X; apply (full_read to_integer _ t vs X)|exact J|exact P|exact P'].
  - refine (pair_one _ _ _ _ _ _ A9 B9). intros i p q J P P'. apply (table_one (full_row to_double) Layers is i); [apply full_one|intros t vs X; apply (full_read to_double _ t vs X)|exact J|exact P|exact P'].
Qed.
Example C67_unique_case : exists x, means decimal no_files (se_items (hd (SE [] [] [] []) channel_sections)) x.
Proof. destruct (C67_read decimal no_files _ _ (proj1 C67_read_case)) as (xs & _ & F). inversion F; subst. eauto. Qed.

(* ---- what the words in a file do not say ---- *)
Definition block (items : list string) : text := joined newline (map txt (["Define mesh:"%string; "Output file prefix: a"%string; "Output file format: VTU"%string; "Element size: 1"%string] ++ items ++ ["End mesh"%string])).
(* a flag that is not written as a number is ignored *)
Theorem C67_flag_refuted : exists file x, read_content file = map txt ["Define mesh:"; "Output file prefix: a"; "Output file format: VTU"; "Element size: 1"; "Smooth quad layers: true"; "End mesh"]%string /\
  value_of (letters "Smooth quad layers:") (txt "Smooth quad layers: true") (txt "true") /\ read_file decimal no_files file = Ok [x] /\ in_smooth x = false.
Proof.
  exists (block ["Smooth quad layers: true"]%string). eexists. split; [vm_compute; reflexivity|]. split; [apply (value_at_ok SmoothLayers); vm_compute; reflexivity|].
  split; [vm_compute; reflexivity|vm_compute; reflexivity].
Qed.
(* a negative number of steps becomes a number beyond all bounds *)
Theorem C67_count_refuted : exists file x, file_of decimal file [SE [] (txt "Define mesh:") (map (fun p => Value (fst p) (txt (snd p)))
    [(Prefix, "Output file prefix: a"); (Format, "Output file format: VTU"); (Size, "Element size: 1"); (Iterations, "Number of smoothing iterations: -1")]%string) (txt "End mesh")] /\
  read_file decimal no_files file = Ok [x] /\ in_iterations x = 18446744073709551615%Z.
Proof.
  exists (block ["Number of smoothing iterations: -1"]%string). eexists. split; [apply (fileb_ok decimal _ _ []); vm_compute; reflexivity|]. split; [vm_compute; reflexivity|vm_compute; reflexivity].
Qed.
(* a blank line between the vertices is one more vertex *)
Theorem C67_blank_refuted : exists file x store, read_content file = map txt ["Define mesh:"; "Output file prefix: a"; "Output file format: VTU"; "Element size: 1";
      "Define boundary vertices:"; "0, 0"; ""; "1, 0"; "End boundary vertices"; "End mesh"]%string /\
  read_file decimal no_files file = Ok [x] /\ file_store 100 x = Ok store /\ map vi_xy store = [V2 0 0; V2 (-1) (-1); V2 1 0].
Proof.
  exists (block ["Define boundary vertices:"; "0, 0"; ""; "1, 0"; "End boundary vertices"]%string). eexists. eexists. split; [vm_compute; reflexivity|].
  split; [vm_compute; reflexivity|]. split; [vm_compute; reflexivity|vm_compute; reflexivity].
Qed.
(* a comma in a comment behind a row shifts the values of all further rows *)
Theorem C67_comment_refuted : exists file x store, read_content file = map txt ["Define mesh:"; "Output file prefix: a"; "Output file format: VTU"; "Element size: 1";
      "Define boundary vertices:"; "0, 0, 0.1, 1 # left, below"; "5, 0, 0.1, 1 # right, below"; "5, 5, 0.1, 1 # right, above"; "0, 5, 0.1, 1 # left, above"; "End boundary vertices"; "End mesh"]%string /\
  read_file decimal no_files file = Ok [x] /\ file_store 100 x = Ok store /\ length store = 5 /\ nth_error (map vi_xy store) 1 = Some (V2 (-1) 5).
Proof.
  exists (block ["Define boundary vertices:"; "0, 0, 0.1, 1 # left, below"; "5, 0, 0.1, 1 # right, below"; "5, 5, 0.1, 1 # right, above"; "0, 5, 0.1, 1 # left, above"; "End boundary vertices"]%string).
  eexists. eexists. split; [vm_compute; reflexivity|]. split; [vm_compute; reflexivity|]. split; [vm_compute; reflexivity|]. split; vm_compute; reflexivity.
Qed.
(* a value that is missing is -1, also where a value is needed *)
Theorem C67_missing_refuted : exists file x p, file_of decimal file [SE [] (txt "Define mesh:") (map (fun p => Value (fst p) (txt (snd p)))
    [(Prefix, "Output file prefix: a"); (Format, "Output file format: VTU"); (Size, "Element size: 1"); (Bdry true KRect, "Define exterior rectangular boundary: 1, 0, 0, 4")]%string) (txt "End mesh")] /\
  read_file decimal no_files file = Ok [x] /\ in_exterior x = Some (DRect p) /\ get_value p 3 0 = Some 4%Q /\ get_value p 4 0 = Some (-(1))%Q.
Proof.
  exists (block ["Define exterior rectangular boundary: 1, 0, 0, 4"]%string). eexists. eexists. split; [apply (fileb_ok decimal _ _ []); vm_compute; reflexivity|]. split; [vm_compute; reflexivity|].
  split; [vm_compute; reflexivity|]. split; vm_compute; reflexivity.
Qed.

Print Assumptions C67_read.
Print Assumptions C67_mandatory.
Print Assumptions C67_words.
Print Assumptions C67_order.
Print Assumptions C67_unique.
Print Assumptions C67_flag_refuted.
Print Assumptions C67_count_refuted.
Print Assumptions C67_blank_refuted.
Print Assumptions C67_comment_refuted.
Print Assumptions C67_missing_refuted.
