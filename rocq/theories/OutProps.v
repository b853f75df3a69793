(* C53 and C54: the text of the output files. *)
From Coq Require Import Ascii String Qabs Lqa Lia.
From Verif Require Import Base GeomModel UtilModel FacetModel BdryModel AdvanceModel MeshModel MeshProps OutModel OutSpec OutProofs.
Open Scope nat_scope.
Open Scope list_scope.

(* ---- C53: the VTU file ---- *)
Lemma arrays_words ws l : arrays (map Word ws ++ l) = arrays l.
Proof. induction ws as [|w ws IH]; [reflexivity|exact IH]. Qed.
Lemma words_words ws t l : words (map Word ws ++ Tag t :: l) = ws.
Proof. induction ws as [|w ws IH]; [reflexivity|]. cbn. f_equal. exact IH. Qed.
Lemma piece_words ws l : piece (map Word ws ++ l) = piece l.
Proof. induction ws as [|w ws IH]; [reflexivity|exact IH]. Qed.
Lemma nested_words ws o os l : nested (o :: os) (map Word ws ++ l) = nested (o :: os) l.
Proof. induction ws as [|w ws IH]; [reflexivity|exact IH]. Qed.

Definition name_attrs (ty name : string) : list text :=
  [attribute "type" (chars ty); attribute "Name" (chars name); attribute "NumberOfComponents" (dec 1); attribute "Format" (chars "ascii")].
Definition data_items (d : data) : list item := array_items (name_attrs (da_type d) (da_name d)) (da_words d).
Definition tidy (d : data) : Prop := forallb tag_char (chars (da_type d)) = true /\ forallb tag_char (chars (da_name d)) = true /\ Forall is_word (da_words d).
Lemma attr_tag k t : forallb tag_char (chars k) = true -> forallb tag_char t = true -> forallb tag_char (attribute k t) = true.
Proof. intros A B. unfold attribute, quoted. rewrite forallb_app, A. cbn [forallb]. rewrite forallb_app, B. reflexivity. Qed.
Lemma lex_data d t : tidy d -> lex Between (write_data d ++ t) = data_items d ++ lex Between t.
Proof.
  intros (A & B & C). unfold write_data. apply lex_array; [|apply entry_self; exact C]. unfold name_attrs. cbn [forallb]. rewrite !attr_tag; auto.
Qed.
Lemma lex_datas ds t : Forall tidy ds -> lex Between (flat_map write_data ds ++ t) = flat_map data_items ds ++ lex Between t.
Proof. induction 1 as [|d ds D _ IH]; [reflexivity|]. cbn [flat_map]. rewrite <- !app_assoc. rewrite (lex_data _ _ D), IH. reflexivity. Qed.
Definition group_items (name : string) (ds : list data) : list item :=
  match ds with [] => [] | _ => Tag (chars name ++ " "%char :: attribute "Scalars" (chars "scalars")) :: flat_map data_items ds ++ [Tag ("/"%char :: chars name)] end.
Lemma lex_group name ds t : forallb tag_char (chars name) = true -> Forall tidy ds -> lex Between (group name ds ++ t) = group_items name ds ++ lex Between t.
Proof.
  intros N F. destruct ds as [|d ds]; [reflexivity|]. unfold group, group_items. rewrite <- !app_assoc.
  replace (chars name ++ " "%char :: attribute "Scalars" (chars "scalars") ++ [">"%char]) with ((chars name ++ " "%char :: attribute "Scalars" (chars "scalars")) ++ [">"%char]) by (rewrite <- app_assoc; reflexivity).
  rewrite lex_line by (rewrite forallb_app, N; reflexivity). rewrite (lex_datas _ _ F).
  change (chars "</" ++ chars name ++ [">"%char]) with ("<"%char :: ("/"%char :: chars name) ++ [">"%char]). rewrite lex_line by (cbn; exact N).
  cbn [app]. rewrite <- app_assoc. reflexivity.
Qed.
Definition cells_items (name : string) (zs : list Z) : list item :=
  array_items [attribute "type" (chars "Int32"); attribute "Name" (chars name); attribute "Format" (chars "ascii")] (map int_text zs).
Lemma lex_cells name zs t : forallb tag_char (chars name) = true -> lex Between (cells_array name zs ++ t) = cells_items name zs ++ lex Between t.
Proof. intros N. unfold cells_array. apply lex_array; [|apply entry_setw]. cbn [forallb]. rewrite !attr_tag; auto. Qed.

Definition piece_tag (np nc : N) : text := chars "Piece " ++ attribute "NumberOfPoints" (dec np) ++ " "%char :: attribute "NumberOfCells" (dec nc).
Definition vtu_items (points : list Q) (conn off types : list Z) (pd cd : list data) : list item :=
  [Tag (chars "VTKFile " ++ attribute "type" (chars "UnstructuredGrid") ++ " "%char :: attribute "version" (chars "0.1") ++ " "%char :: attribute "byte_order" (chars "LittleEndian"));
   Tag (chars "UnstructuredGrid"); Tag (piece_tag (N.of_nat (Nat.div (List.length points) 3)) (N.of_nat (List.length off)))] ++
  group_items "PointData" pd ++ group_items "CellData" cd ++
  Tag (chars "Points") :: array_items [attribute "type" (chars "Float32"); attribute "NumberOfComponents" (chars "3"); attribute "Format" (chars "ascii")] (map fixed5 points) ++ Tag (chars "/Points") ::
  Tag (chars "Cells") :: cells_items "connectivity" conn ++ cells_items "offsets" off ++ cells_items "types" (firstn (List.length off) types) ++ [Tag (chars "/Cells");
  Tag (chars "/Piece"); Tag (chars "/UnstructuredGrid"); Tag (chars "/VTKFile")].
Lemma vtu_lex points conn off types pd cd t : Forall tidy pd -> Forall tidy cd -> vtu_text points conn off types pd cd = Ok t -> lex Between t = vtu_items points conn off types pd cd.
Proof.
  intros P C E. unfold vtu_text in E. destruct (Nat.ltb _ _); [discriminate|].
  assert (T : t = vtu_body points conn off types pd cd) by congruence. rewrite T. clear E T. unfold vtu_body.
  set (np := N.of_nat _). set (nc := N.of_nat _).
  change (line 0 ("<"%char :: chars "VTKFile " ++ attribute "type" (chars "UnstructuredGrid") ++ " "%char :: attribute "version" (chars "0.1") ++ " "%char :: attribute "byte_order" (chars "LittleEndian") ++ [">"%char]))
    with (line 0 ("<"%char :: (chars "VTKFile " ++ attribute "type" (chars "UnstructuredGrid") ++ " "%char :: attribute "version" (chars "0.1") ++ " "%char :: attribute "byte_order" (chars "LittleEndian")) ++ [">"%char])).
  rewrite lex_line by reflexivity. change (chars "<UnstructuredGrid>") with ("<"%char :: chars "UnstructuredGrid" ++ [">"%char]). rewrite lex_line by reflexivity.
  replace ("<"%char :: chars "Piece " ++ attribute "NumberOfPoints" (dec np) ++ " "%char :: attribute "NumberOfCells" (dec nc) ++ [">"%char])
    with ("<"%char :: piece_tag np nc ++ [">"%char]) by (unfold piece_tag; rewrite <- !app_assoc; cbn [app]; rewrite <- ?app_assoc; reflexivity).
  rewrite lex_line.
  2:{ unfold piece_tag, attribute, quoted. rewrite !forallb_app. cbn [forallb]. rewrite !forallb_app. cbn [forallb]. rewrite !forallb_app, !(digits_tag _ (dec_digit _)). reflexivity. }
  rewrite (lex_group "PointData" pd _ eq_refl P), (lex_group "CellData" cd _ eq_refl C).
  change (chars "<Points>") with ("<"%char :: chars "Points" ++ [">"%char]). rewrite lex_line by reflexivity.
  rewrite (lex_array _ (map fixed5 points) (map fixed5 points)); [|reflexivity|apply entry_self; apply Forall_forall; intros w I; apply in_map_iff in I; destruct I as (q & <- & _); apply number_word; apply fixed5_number].
  change (chars "</Points>") with ("<"%char :: chars "/Points" ++ [">"%char]). rewrite lex_line by reflexivity.
  change (chars "<Cells>") with ("<"%char :: chars "Cells" ++ [">"%char]). rewrite lex_line by reflexivity.
  rewrite !lex_cells by reflexivity.
  change (chars "</Cells>") with ("<"%char :: chars "/Cells" ++ [">"%char]). rewrite lex_line by reflexivity.
  change (chars "</Piece>") with ("<"%char :: chars "/Piece" ++ [">"%char]). rewrite lex_line by reflexivity.
  change (chars "</UnstructuredGrid>") with ("<"%char :: chars "/UnstructuredGrid" ++ [">"%char]). rewrite lex_line by reflexivity.
  change (chars "</VTKFile>") with ("<"%char :: chars "/VTKFile" ++ [">"%char]). rewrite <- (app_nil_r (line 0 ("<"%char :: chars "/VTKFile" ++ [">"%char]))), lex_line by reflexivity.
  reflexivity.
Qed.

(* the number of points and cells *)
Lemma split_word s t r : forallb (fun c => negb (Ascii.eqb c s)) t = true -> split_at s (t ++ s :: r) = (t, Some r).
Proof.
  induction t as [|c t IH]; cbn; [rewrite Ascii.eqb_refl; reflexivity|]. intros H. apply andb_true_iff in H. destruct H as [A B]. apply negb_true_iff in A. rewrite A, (IH B). reflexivity.
Qed.
Lemma attr_skip key t : forall r, Forall is_digit t -> attr key (t ++ r) = attr key r.
Proof.
  induction t as [|c t IH]; intros r F; [reflexivity|]. inversion F as [|? ? D F']; subst. cbn [app attr starts].
  assert (X : Ascii.eqb " "%char c = false) by (rewrite Ascii.eqb_sym; apply (digit_not c " "%char D eq_refl)). rewrite X. exact (IH r F').
Qed.
Lemma piece_attrs np nc : starts (chr "Piece ") (piece_tag np nc) <> None /\
  attr (chr "NumberOfPoints") (piece_tag np nc) = Some (dec np) /\ attr (chr "NumberOfCells") (piece_tag np nc) = Some (dec nc).
Proof.
  split; [discriminate|]. unfold piece_tag, attribute, quoted.
  assert (A : forall r, split_at quote_char (dec np ++ quote_char :: r) = (dec np, Some r)) by (intros r; apply split_digits; [apply dec_digit|reflexivity]).
  assert (B : split_at quote_char (dec nc ++ [quote_char]) = (dec nc, Some [])) by (apply split_digits; [apply dec_digit|reflexivity]).
  change quote with quote_char. split.
  - rewrite <- (A (" "%char :: chars "NumberOfCells" ++ "="%char :: quote_char :: dec nc ++ [quote_char])) || idtac.
    transitivity (match split_at quote_char (dec np ++ quote_char :: (" "%char :: chars "NumberOfCells" ++ "="%char :: quote_char :: dec nc ++ [quote_char])) with (v, Some _) => Some v | _ => None end).
    + rewrite <- !app_assoc. cbn [app]. generalize (dec np) as r. intros r. rewrite <- app_assoc. cbn [app]. reflexivity.
    + rewrite A. reflexivity.
  - transitivity (attr (chr "NumberOfCells") (dec np ++ quote_char :: (" "%char :: chars "NumberOfCells" ++ "="%char :: quote_char :: dec nc ++ [quote_char]))).
    + rewrite <- !app_assoc. cbn [app]. rewrite <- app_assoc. cbn [app]. reflexivity.
    + rewrite attr_skip by apply dec_digit. transitivity (match split_at quote_char (dec nc ++ [quote_char]) with (v, Some _) => Some v | _ => None end); [reflexivity|].
      rewrite B. reflexivity.
Qed.

(* the arrays of the file *)
Definition entries_of (d : data) : option text * list text := (Some (chars (da_name d)), da_words d).
Lemma attr_named ty name : forallb (fun c => negb (Ascii.eqb c quote_char)) (chars name) = true ->
  (ty = "Int32" \/ ty = "Float64")%string -> forall rest, attr (chr "Name") (chars "DataArray" ++ flat_map (fun a => " "%char :: a) (attribute "type" (chars ty) :: attribute "Name" (chars name) :: rest)) = Some (chars name).
Proof.
  intros N T rest. assert (S : forall r, split_at quote_char (chars name ++ quote_char :: r) = (chars name, Some r)) by (intros r; apply split_word; exact N).
  transitivity (match split_at quote_char (chars name ++ quote_char :: flat_map (fun a => " "%char :: a) rest) with (v, Some _) => Some v | _ => None end); [|rewrite S; reflexivity].
  unfold attribute, quoted. cbn [flat_map]. change quote with quote_char. generalize (flat_map (fun a => " "%char :: a) rest). generalize (chars name). intros t r.
  replace ((" "%char :: chars "Name" ++ "="%char :: quote_char :: t ++ [quote_char]) ++ r) with (" "%char :: chars "Name" ++ "="%char :: quote_char :: t ++ quote_char :: r) by (cbn; rewrite <- app_assoc; reflexivity).
  destruct T as [-> | ->]; reflexivity.
Qed.
Lemma arrays_array attrs ws l : arrays (array_items attrs ws ++ l) = (attr (chr "Name") (chars "DataArray" ++ flat_map (fun a => " "%char :: a) attrs), ws) :: arrays l.
Proof.
  unfold array_items. cbn [app]. rewrite <- app_assoc. set (tg := chars "DataArray" ++ _). change (arrays (Tag tg :: map Word ws ++ [Tag (chars "/DataArray")] ++ l))
    with (match starts (chr "DataArray") tg with Some _ => (attr (chr "Name") tg, words (map Word ws ++ [Tag (chars "/DataArray")] ++ l)) :: arrays (map Word ws ++ [Tag (chars "/DataArray")] ++ l)
          | None => arrays (map Word ws ++ [Tag (chars "/DataArray")] ++ l) end).
  assert (S : exists x, starts (chr "DataArray") tg = Some x) by (eexists; reflexivity). destruct S as [x ->].
  rewrite arrays_words. cbn [app]. rewrite words_words. reflexivity.
Qed.
Definition named (d : data) : Prop := (da_type d = "Int32" \/ da_type d = "Float64")%string /\ forallb (fun c => negb (Ascii.eqb c quote_char)) (chars (da_name d)) = true.
Lemma arrays_datas ds l : Forall named ds -> arrays (flat_map data_items ds ++ l) = map entries_of ds ++ arrays l.
Proof.
  induction 1 as [|d ds [T N] _ IH]; [reflexivity|]. cbn [flat_map map app]. rewrite <- app_assoc. unfold data_items at 1, name_attrs. rewrite arrays_array, (attr_named _ _ N T), IH. reflexivity.
Qed.
Lemma arrays_group name ds l : (name = "PointData" \/ name = "CellData")%string -> Forall named ds -> arrays (group_items name ds ++ l) = map entries_of ds ++ arrays l.
Proof.
  intros NM F. destruct ds as [|d ds]; [reflexivity|]. unfold group_items. rewrite <- app_comm_cons, <- app_assoc.
  transitivity (arrays (flat_map data_items (d :: ds) ++ [Tag ("/"%char :: chars name)] ++ l)); [destruct NM as [-> | ->]; reflexivity|].
  rewrite (arrays_datas _ _ F). f_equal. 
Qed.
Lemma vtu_arrays points conn off types pd cd : Forall named pd -> Forall named cd ->
  arrays (vtu_items points conn off types pd cd) = map entries_of pd ++ map entries_of cd ++
    [(None, map fixed5 points); (Some (chars "connectivity"), map int_text conn); (Some (chars "offsets"), map int_text off); (Some (chars "types"), map int_text (firstn (List.length off) types))].
Proof.
  intros P C. unfold vtu_items. set (np := N.of_nat _). set (nc := N.of_nat _).
  match goal with |- arrays ([?a; ?b; ?c] ++ ?r) = _ => transitivity (arrays r); [reflexivity|] end.
  rewrite (arrays_group "PointData" pd _ (or_introl eq_refl) P), (arrays_group "CellData" cd _ (or_intror eq_refl) C). f_equal. f_equal.
  match goal with |- arrays (?a :: ?r) = _ => transitivity (arrays r); [reflexivity|] end. rewrite arrays_array. f_equal.
  match goal with |- arrays (?a :: ?b :: ?r) = _ => transitivity (arrays r); [reflexivity|] end. unfold cells_items. rewrite !arrays_array. reflexivity.
Qed.
Lemma nested_array attrs ws o os l : nested (o :: os) (array_items attrs ws ++ l) = nested (o :: os) l.
Proof.
  unfold array_items. cbn [app]. rewrite <- app_assoc. set (tg := chars "DataArray" ++ _).
  assert (T : tag_name tg = chars "DataArray").
  { unfold tg, tag_name. destruct attrs as [|a r]; [reflexivity|]. cbn [flat_map]. rewrite <- app_comm_cons. rewrite split_word by reflexivity. reflexivity. }
  transitivity (nested (tag_name tg :: o :: os) (map Word ws ++ [Tag (chars "/DataArray")] ++ l)); [reflexivity|]. rewrite nested_words, T. reflexivity.
Qed.
Lemma nested_datas ds o os l : nested (o :: os) (flat_map data_items ds ++ l) = nested (o :: os) l.
Proof. induction ds as [|d ds IH]; [reflexivity|]. cbn [flat_map]. rewrite <- app_assoc. unfold data_items at 1. rewrite nested_array. exact IH. Qed.
Lemma nested_group name ds o os l : (name = "PointData" \/ name = "CellData")%string -> nested (o :: os) (group_items name ds ++ l) = nested (o :: os) l.
Proof.
  intros NM. destruct ds as [|d ds]; [reflexivity|]. unfold group_items. rewrite <- app_comm_cons, <- app_assoc.
  transitivity (nested (chars name :: o :: os) (flat_map data_items (d :: ds) ++ [Tag ("/"%char :: chars name)] ++ l)); [destruct NM as [-> | ->]; reflexivity|].
  rewrite nested_datas. destruct NM as [-> | ->]; reflexivity.
Qed.
Lemma vtu_nested points conn off types pd cd : nested [] (vtu_items points conn off types pd cd) = true.
Proof.
  unfold vtu_items. set (np := N.of_nat _). set (nc := N.of_nat _).
  match goal with |- nested [] ([?a; ?b; ?c] ++ ?r) = _ => transitivity (nested [chars "Piece"; chars "UnstructuredGrid"; chars "VTKFile"] r); [reflexivity|] end.
  rewrite !nested_group by auto.
  match goal with |- nested ?o (?a :: ?r) = _ => transitivity (nested (chars "Points" :: o) r); [reflexivity|] end. rewrite nested_array.
  match goal with |- nested (_ :: ?o) (?a :: ?b :: ?r) = _ => transitivity (nested (chars "Cells" :: o) r); [reflexivity|] end. unfold cells_items. rewrite !nested_array. reflexivity.
Qed.
Lemma vtu_piece points conn off types pd cd :
  piece (vtu_items points conn off types pd cd) = Some (dec (N.of_nat (Nat.div (List.length points) 3)), dec (N.of_nat (List.length off))).
Proof.
  unfold vtu_items. set (np := N.of_nat _). set (nc := N.of_nat _). destruct (piece_attrs np nc) as (A & B & C).
  match goal with |- piece ([?a; ?b; ?c] ++ ?r) = _ => transitivity (piece (c :: r)); [reflexivity|] end. cbn [piece].
  destruct (starts (chr "Piece ") (piece_tag np nc)); [|contradiction]. rewrite B, C. reflexivity.
Qed.

Lemma all_ints zs : all_some (map read_int (map int_text zs)) = Some zs.
Proof. induction zs as [|z zs IH]; [reflexivity|]. cbn [map all_some]. rewrite read_int_text, IH. reflexivity. Qed.
Lemma all_numbers qs : all_some (map read_number (map fixed5 qs)) = Some (map shown qs).
Proof. induction qs as [|q qs IH]; [reflexivity|]. cbn [map all_some]. rewrite read_fixed5, IH. reflexivity. Qed.
Lemma all_words {A} (f : A -> text) l : (forall x, is_word (f x)) -> Forall is_word (map f l).
Proof. intros H. apply Forall_forall. intros w I. apply in_map_iff in I. destruct I as (x & <- & _). apply H. Qed.
Definition bit (b : bool) : Z := if b then 1%Z else 0%Z.

Section Vtu.
Variable plain : Q -> text.
Variable size_at : vec2 -> Q.
Variable longest angle quality : facet -> Q.
(* a double is printed as a word: no blanks and no tags in it *)
Hypothesis plain_word : forall q, plain q <> [] /\ forall c, In c (plain q) -> is_blank c = false /\ c <> "<"%char.
Notation vtu_file := (vtu_file plain size_at longest angle quality).

Lemma plain_is_word q : is_word (plain q).
Proof.
  destruct (plain_word q) as [A B]. split; [exact A|]. apply forallb_forall. intros c I. destruct (B c I) as [X Y]. unfold word_char. rewrite X.
  destruct (Ascii.eqb_spec c "<"%char); [contradiction|reflexivity].
Qed.

(* C53: the VTU file of every mesh is well formed; read back it has the numbers of vertices and
   elements, the corners, types and colours of the elements, the marks of the vertices,
   and their coordinates up to half of the fifth decimal *)
Theorem C53_vtu m vidx : exists t, vtu_file m vidx = Ok t /\ nested [] (lex Between t) = true /\
  (exists a b, piece (lex Between t) = Some (a, b) /\ read_nat a = Some (Z.of_nat (List.length (mh_verts m))) /\ read_nat b = Some (Z.of_nat (List.length (facets m)))) /\
  ints_of "connectivity" t = Some (vt_conn (vtu_data m vidx)) /\ ints_of "offsets" t = Some (vt_off (vtu_data m vidx)) /\
  ints_of "types" t = Some (vt_types (vtu_data m vidx)) /\ ints_of "element_color" t = Some (map fa_col (facets m)) /\
  ints_of "in_quad_layer" t = Some (map (fun v => bit (has_property (mh_prop m v) v_in_quad_layer)) (mh_verts m)) /\
  ints_of "fixed_vertices" t = Some (map (fun v => bit (has_property (mh_prop m v) v_is_fixed)) (mh_verts m)) /\
  exists ps, points_of t = Some ps /\ Forall2 (fun p q => (Qabs (p - q) <= 1 # 200000)%Q) ps (flat_map (fun v => [vx (mh_pos m v); vy (mh_pos m v); 0%Q]) (mh_verts m)).
Proof.
  destruct (C28_vtu_offsets m vidx) as (_ & _ & LO). destruct (C28_vtu_faithful m vidx) as (_ & LP & _ & _).
  assert (LT : List.length (vt_types (vtu_data m vidx)) = List.length (vt_off (vtu_data m vidx))) by (rewrite LO; cbn; apply map_length).
  unfold OutModel.vtu_file. set (d := vtu_data m vidx) in *.
  set (pd := [DA "Float64" "size_function" _; _; _]). set (cd := [DA "Int32" "element_color" _; _; _; _]).
  assert (FW : forall b, is_word (flag_text b)) by (intros b; apply number_word; apply int_number).
  assert (TP : Forall tidy pd) by (repeat constructor; try reflexivity; apply all_words; intros; first [apply FW|apply plain_is_word]).
  assert (TC : Forall tidy cd).
  { repeat constructor; try reflexivity; apply all_words; intros; first [apply plain_is_word|apply number_word; apply int_number]. }
  assert (NP : Forall named pd) by (repeat constructor; auto). assert (NC : Forall named cd) by (repeat constructor; auto).
  unfold vtu_text. rewrite LT, Nat.ltb_irrefl. eexists. split; [reflexivity|]. set (t := vtu_body _ _ _ _ _ _).
  assert (L : lex Between t = vtu_items (vt_points d) (vt_conn d) (vt_off d) (vt_types d) pd cd).
  { apply vtu_lex; [exact TP|exact TC|]. unfold vtu_text. rewrite LT, Nat.ltb_irrefl. reflexivity. }
  unfold ints_of, points_of, array_of. rewrite L, (vtu_arrays _ _ _ _ _ _ NP NC). rewrite <- LT, firstn_all.
  split; [apply vtu_nested|]. split; [|].
  { eexists. eexists. split; [apply vtu_piece|]. rewrite !read_dec, LP, LO. rewrite Nat.mul_comm, Nat.div_mul by discriminate. rewrite !nat_N_Z. split; reflexivity. }
  clear L. clearbody t. cbn [map app pd cd entries_of da_name da_words].
  split; [change (lookup _ _) with (Some (map int_text (vt_conn d))); apply all_ints|].
  split; [change (lookup _ _) with (Some (map int_text (vt_off d))); apply all_ints|].
  split; [change (lookup _ _) with (Some (map int_text (vt_types d))); apply all_ints|].
  split; [change (lookup _ _) with (Some (map int_text (vt_color d))); apply all_ints|].
  split; [|split; [|]].
  - change (lookup _ _) with (Some (map (fun v => flag_text (has_property (mh_prop m v) v_in_quad_layer)) (mh_verts m))). unfold flag_text.
    rewrite <- (map_map (fun v => bit (has_property (mh_prop m v) v_in_quad_layer)) int_text). apply all_ints.
  - change (lookup _ _) with (Some (map (fun v => flag_text (has_property (mh_prop m v) v_is_fixed)) (mh_verts m))). unfold flag_text.
    rewrite <- (map_map (fun v => bit (has_property (mh_prop m v) v_is_fixed)) int_text). apply all_ints.
  - change (lookup _ _) with (Some (map fixed5 (vt_points d))). exists (map shown (vt_points d)). split; [apply all_numbers|].
    change (flat_map _ (mh_verts m)) with (vt_points d). clear. induction (vt_points d) as [|q l IH]; [constructor|]. cbn [map]. constructor; [apply shown_close|exact IH].
Qed.
(* C53: the cells of the file are the elements *)
Theorem C53_cells m vidx : exists t conn off, vtu_file m vidx = Ok t /\ ints_of "connectivity" t = Some conn /\ ints_of "offsets" t = Some off /\
  cells 0 conn off = map (fun f => map vidx (corners (fa_sh f))) (facets m).
Proof.
  destruct (C53_vtu m vidx) as (t & E & _ & _ & C & O & _). exists t, (vt_conn (vtu_data m vidx)), (vt_off (vtu_data m vidx)).
  split; [exact E|]. split; [exact C|]. split; [exact O|]. apply C28_vtu_faithful.
Qed.
End Vtu.

(* C53, coordinates: the points of the file differ from the vertices of the mesh; a mesh with
   small coordinates is written as a single point *)
Definition tiny_mesh : mesh :=
  MH (fun v => nth v [V2 0 0; V2 (1 # 250000) 0; V2 0 (1 # 250000)] (V2 0 0)) (fun _ => 0%N) [0; 1; 2] [] [FA 3 (Tri3 0 1 2) 0 true] [] [] (fun _ _ => None) 4 (1 # 125000000000) 0 1.
Theorem C53_coordinates_refuted : exists m vidx t, vtu_file (fun _ => chars "1") (fun _ => 1%Q) (fun _ => 1%Q) (fun _ => 1%Q) (fun _ => 1%Q) m vidx = Ok t /\
  (exists f, facets m = [f] /\ 0 < fa_area (mh_pos m) f)%Q /\
  exists ps, points_of t = Some ps /\ Forall (fun p => p == 0)%Q ps.
Proof.
  exists tiny_mesh, (fun v => Z.of_nat v). eexists. split; [vm_compute; reflexivity|]. split; [eexists; split; reflexivity|].
  eexists. split; [vm_compute; reflexivity|]. repeat constructor.
Qed.
Example C53_vtu_case : exists t, vtu_file (fun _ => chars "0.5") (fun _ => 1%Q) (fun _ => 1%Q) (fun _ => 1%Q) (fun _ => 1%Q) house (fun v => Z.of_nat v) = Ok t /\
  ints_of "connectivity" t = Some [0; 1; 2; 3; 3; 2; 4]%Z /\ ints_of "offsets" t = Some [4; 7]%Z /\ ints_of "types" t = Some [9; 5]%Z /\
  firstn 2 (lines t) = [chr "<VTKFile type=""UnstructuredGrid"" version=""0.1"" byte_order=""LittleEndian"">"; chr "  <UnstructuredGrid>"].
Proof. eexists. split; [vm_compute; reflexivity|]. repeat split; vm_compute; reflexivity. Qed.

(* ---- C53: the name of the file ---- *)
Lemma after_dot_split t : forall last, In "."%char t -> exists a, t = a ++ "."%char :: after_dot t last.
Proof.
  induction t as [|c t IH]; intros last I; [destruct I|]. cbn [after_dot].
  assert (D : In "."%char t \/ ~ In "."%char t) by (destruct (in_dec ascii_dec "."%char t); auto). destruct D as [D|D].
  - destruct (IH (if Ascii.eqb c "."%char then t else last) D) as [a E]. exists (c :: a). cbn. f_equal. exact E.
  - destruct I as [-> | I]; [|contradiction]. rewrite Ascii.eqb_refl. exists []. cbn. f_equal.
    assert (X : forall s l, ~ In "."%char s -> after_dot s l = l).
    { induction s as [|x s IHs]; intros l N; [reflexivity|]. cbn. destruct (Ascii.eqb_spec x "."%char) as [->|_]; [exfalso; apply N; left; reflexivity|]. apply IHs. intros Y. apply N. right. exact Y. }
    symmetry. apply X. exact D.
Qed.
(* the name ends in the extension, if it has a dot in it at all *)
Theorem C53_path_partial ext t : In "."%char t \/ t <> chars ext -> exists a, full_path ext t = a ++ "."%char :: chars ext.
Proof.
  intros H. unfold full_path. destruct (String.eqb_spec (string_of_list_ascii (after_dot t t)) ext) as [E|E]; [|exists t; reflexivity].
  assert (E' : after_dot t t = chars ext) by (rewrite <- E; unfold chars; symmetry; apply list_ascii_of_string_of_list_ascii).
  assert (D : In "."%char t \/ ~ In "."%char t) by (destruct (in_dec ascii_dec "."%char t); auto). destruct D as [D|D].
  - destruct (after_dot_split t t D) as [a A]. exists a. rewrite A at 1. rewrite E'. reflexivity.
  - destruct H as [H|H]; [contradiction|]. exfalso. apply H. rewrite <- E'.
    assert (X : forall s l, ~ In "."%char s -> after_dot s l = l).
    { induction s as [|x s IHs]; intros l N; [reflexivity|]. cbn. destruct (Ascii.eqb_spec x "."%char) as [->|_]; [exfalso; apply N; left; reflexivity|]. apply IHs. intros Y. apply N. right. exact Y. }
    symmetry. apply X. exact D.
Qed.
Theorem C53_path_refuted : exists t, full_path "vtu" t = t /\ ~ In "."%char t.
Proof. exists (chars "vtu"). split; [reflexivity|]. cbn. intros [H|[H|[H|[]]]]; discriminate. Qed.
Example C53_path_case : full_path "vtu" (chars "a.b/mesh") = chars "a.b/mesh.vtu" /\ full_path "vtu" (chars "mesh.vtu") = chars "mesh.vtu".
Proof. split; reflexivity. Qed.
(* the result of write is true even if the file could not be opened *)
Theorem C53_unwritten_refuted : exists opened t, fst (write_to opened t) = None /\ snd (write_to opened t) = true.
Proof. exists false, []. split; reflexivity. Qed.

(* ---- C54: the text file ---- *)
Definition one_line (t : text) : bool := forallb (fun c => negb (Ascii.eqb c (ascii_of_nat 10))) t.
Lemma lines_line t r : one_line t = true -> lines (t ++ newline ++ r) = t :: lines r.
Proof.
  unfold one_line. induction t as [|c t IH]; [reflexivity|]. cbn [forallb]. intros H. apply andb_true_iff in H. destruct H as [A B]. apply negb_true_iff in A.
  cbn [app lines]. rewrite A. cbn [app] in IH. rewrite (IH B). reflexivity.
Qed.
Lemma lines_rows bs r : Forall (fun b => one_line b = true) bs -> lines (List.concat (map (fun b => b ++ newline) bs) ++ r) = bs ++ lines r.
Proof. induction 1 as [|b bs H _ IH]; [reflexivity|]. cbn [map List.concat app]. rewrite <- !app_assoc, (lines_line _ _ H), IH. reflexivity. Qed.
Lemma number_line t : is_number t -> one_line t = true.
Proof. intros [_ N]. unfold one_line. rewrite forallb_forall in *. intros c I. rewrite (numeric_not c (ascii_of_nat 10) (N c I) eq_refl). reflexivity. Qed.
Lemma one_line_app a b : one_line (a ++ b) = one_line a && one_line b.
Proof. apply forallb_app. Qed.
Lemma blanks_line k : one_line (blanks k) = true.
Proof. induction k; [reflexivity|exact IHk]. Qed.

(* fields separated by commas *)
Definition no_comma (t : text) : bool := forallb (fun c => negb (Ascii.eqb c ","%char)) t.
Lemma commas_field t r : no_comma t = true -> commas (t ++ ","%char :: r) = t :: commas r.
Proof.
  unfold no_comma. induction t as [|c t IH]; [reflexivity|]. cbn [forallb]. intros H. apply andb_true_iff in H. destruct H as [A B]. apply negb_true_iff in A.
  cbn [app commas]. rewrite A, (IH B). reflexivity.
Qed.
Lemma commas_last t : no_comma t = true -> commas t = [t].
Proof.
  unfold no_comma. induction t as [|c t IH]; [reflexivity|]. cbn [forallb]. intros H. apply andb_true_iff in H. destruct H as [A B]. apply negb_true_iff in A.
  cbn [commas]. rewrite A, (IH B). reflexivity.
Qed.
Lemma commas_fields ws : ws <> [] -> Forall (fun w => no_comma w = true) ws -> commas (fields ws) = ws.
Proof.
  intros N F. induction F as [|w ws H F IH]; [contradiction|]. destruct ws as [|x ws]; [apply commas_last; exact H|].
  change (fields (w :: x :: ws)) with (w ++ ","%char :: fields (x :: ws)). rewrite (commas_field _ _ H), IH by discriminate. reflexivity.
Qed.
Lemma number_comma t : is_number t -> no_comma t = true.
Proof. intros [_ N]. unfold no_comma. rewrite forallb_forall in *. intros c I. rewrite (numeric_not c ","%char (N c I) eq_refl). reflexivity. Qed.
Lemma strip_blanks k t : strip (blanks k ++ t) = strip t.
Proof. induction k; [reflexivity|exact IHk]. Qed.
Lemma strip_number t : is_number t -> strip t = t.
Proof.
  intros [N B]. destruct t as [|c t]; [contradiction|]. cbn in B. apply andb_true_iff in B. destruct B as [B _]. cbn [strip]. unfold is_blank.
  rewrite (numeric_not c " "%char B eq_refl), (numeric_not c (ascii_of_nat 10) B eq_refl). reflexivity.
Qed.
Lemma setw_comma n z : no_comma (setw n (int_text z)) = true.
Proof. unfold setw, no_comma. rewrite forallb_app. apply andb_true_iff. split; [induction (n - _); [reflexivity|assumption]|apply number_comma; apply int_number]. Qed.
Lemma setw_line n z : one_line (setw n (int_text z)) = true.
Proof. unfold setw. rewrite one_line_app. apply andb_true_iff. split; [apply blanks_line|apply number_line; apply int_number]. Qed.
Lemma fields_line ws : Forall (fun w => one_line w = true) ws -> one_line (fields ws) = true.
Proof.
  induction 1 as [|w ws H _ IH]; [reflexivity|]. destruct ws as [|x ws]; [exact H|]. change (fields (w :: x :: ws)) with (w ++ [","%char] ++ fields (x :: ws)). rewrite !one_line_app, H, IH. reflexivity.
Qed.
Definition row_text (zs : list Z) : text := fields (map (fun z => setw 4 (int_text z)) zs).
Lemma row_line zs : one_line (row_text zs) = true.
Proof. apply fields_line. apply Forall_forall. intros w I. apply in_map_iff in I. destruct I as (z & <- & _). apply setw_line. Qed.
Lemma read_row_text zs : zs <> [] -> read_row (row_text zs) = Some zs.
Proof.
  intros N. unfold read_row, row_text. rewrite commas_fields.
  - clear N. induction zs as [|z zs IH]; [reflexivity|]. cbn [map all_some]. unfold setw at 1. fold (blanks (4 - List.length (int_text z))). rewrite strip_blanks, (strip_number _ (int_number z)), read_int_text, IH. reflexivity.
  - destruct zs; [contradiction|discriminate].
  - apply Forall_forall. intros w I. apply in_map_iff in I. destruct I as (z & <- & _). apply setw_comma.
Qed.
Lemma read_point_text qs : qs <> [] -> read_point (fields (map fixed5 qs)) = Some (map shown qs).
Proof.
  intros N. unfold read_point. rewrite commas_fields.
  - clear N. induction qs as [|q qs IH]; [reflexivity|]. cbn [map all_some]. rewrite (strip_number _ (fixed5_number q)), read_fixed5, IH. reflexivity.
  - destruct qs; [contradiction|discriminate].
  - apply Forall_forall. intros w I. apply in_map_iff in I. destruct I as (q & <- & _). apply number_comma. apply fixed5_number.
Qed.
Lemma point_line qs : one_line (fields (map fixed5 qs)) = true.
Proof. apply fields_line. apply Forall_forall. intros w I. apply in_map_iff in I. destruct I as (q & <- & _). apply number_line. apply fixed5_number. Qed.

(* sections *)
Definition no_blank (s : string) : bool := forallb (fun c => negb (Ascii.eqb c " "%char) && negb (Ascii.eqb c (ascii_of_nat 10))) (chars s).
Definition header (name : string) (n : nat) : text := chars name ++ " "%char :: dec (N.of_nat n).
Lemma lines_section name bs r : no_blank name = true -> Forall (fun b => one_line b = true) bs ->
  lines (section name (map (fun b => b ++ newline) bs) ++ r) = header name (List.length bs) :: bs ++ lines r.
Proof.
  intros N F. assert (E : section name (map (fun b => b ++ newline) bs) ++ r = header name (List.length bs) ++ newline ++ (List.concat (map (fun b => b ++ newline) bs) ++ r)).
  { unfold section, header. rewrite map_length. rewrite <- !app_assoc. rewrite <- !app_comm_cons. rewrite <- !app_assoc. reflexivity. }
  rewrite E, lines_line, (lines_rows _ _ F); [reflexivity|]. unfold header. change (" "%char :: dec (N.of_nat (List.length bs))) with ([" "%char] ++ dec (N.of_nat (List.length bs))). rewrite !one_line_app.
  rewrite (number_line _ (dec_number _)). change (one_line [" "%char]) with true. rewrite !andb_true_r. unfold no_blank in N. unfold one_line. rewrite forallb_forall in *.
  intros c I. specialize (N c I). apply andb_true_iff in N. apply N.
Qed.
Lemma sections_step f name bs ls : no_blank name = true -> sections (S f) (header name (List.length bs) :: bs ++ ls) = option_map (cons (chars name, bs)) (sections f ls).
Proof.
  intros N. cbn [sections]. unfold header. rewrite split_word.
  - rewrite read_dec, nat_N_Z, Nat2Z.id, app_length. rewrite (proj2 (Nat.leb_le _ _)) by lia. rewrite firstn_app, skipn_app, Nat.sub_diag, firstn_all, skipn_all. cbn [firstn skipn app]. rewrite app_nil_r. reflexivity.
  - unfold no_blank in N. rewrite forallb_forall in *. intros c I. specialize (N c I). apply andb_true_iff in N. apply N.
Qed.
(* a file made of sections *)
Definition body (ss : list (string * list text)) : text := flat_map (fun s => section (fst s) (map (fun b => b ++ newline) (snd s))) ss.
Lemma read_body ss : Forall (fun s => no_blank (fst s) = true /\ Forall (fun b => one_line b = true) (snd s)) ss ->
  forall f, List.length ss <= f -> sections f (lines (body ss)) = Some (map (fun s => (chars (fst s), snd s)) ss).
Proof.
  induction 1 as [|[name bs] ss [N F] _ IH]; intros f L; [destruct f; reflexivity|]. cbn [List.length] in L. destruct f as [|f]; [lia|].
  cbn [fst snd] in N, F. change (body ((name, bs) :: ss)) with (section name (map (fun b => b ++ newline) bs) ++ body ss). rewrite (lines_section _ _ _ N F), (sections_step _ _ _ _ N). rewrite (IH f ltac:(lia)). reflexivity.
Qed.
Lemma body_lines ss : Forall (fun s => no_blank (fst s) = true /\ Forall (fun b => one_line b = true) (snd s)) ss -> List.length ss <= List.length (lines (body ss)).
Proof.
  induction 1 as [|[name bs] ss [N F] _ IH]; [cbn; lia|]. cbn [fst snd] in N, F. change (body ((name, bs) :: ss)) with (section name (map (fun b => b ++ newline) bs) ++ body ss).
  rewrite (lines_section _ _ _ N F). cbn [List.length]. rewrite app_length. apply le_n_S. exact (Nat.le_trans _ _ _ IH (Nat.le_add_l _ _)).
Qed.
Section Txt.
Variable vidx fidx : nat -> Z.
Variable twin : nat -> Z * Z.
Variable msize : nat -> Q.
Notation txt_file := (txt_file vidx fidx twin msize).
Notation facet_no := (facet_no fidx).
Definition txt_sections (m : mesh) : list (string * list text) :=
  [("VERTICES"%string, map (fun v => fields (map fixed5 [vx (mh_pos m v); vy (mh_pos m v)])) (mh_verts m));
   ("INTERIOREDGES"%string, map (fun e => row_text [vidx (ed_1 e); vidx (ed_2 e); facet_no (ed_l e); facet_no (ed_r e)]) (valid_interior_edges m));
   ("BOUNDARYEDGES"%string, map (fun e => row_text [vidx (ed_1 e); vidx (ed_2 e); facet_no (ed_l e); ed_col e]) (valid_boundary_edges m));
   ("INTERFACEEDGES"%string, map (fun e => row_text ([vidx (ed_1 e); vidx (ed_2 e); facet_no (ed_l e)] ++ twin_row twin e)) (interface_edges m));
   ("FRONT"%string, map (fun e => row_text [vidx (ed_1 e); vidx (ed_2 e); (-1)%Z]) (front_edges m));
   ("QUADS"%string, map (fun f => row_text (shape_row vidx f)) (mh_quads m));
   ("TRIANGLES"%string, map (fun f => row_text (shape_row vidx f)) (mh_tris m));
   ("QUADNEIGHBORS"%string, map (fun f => row_text (map (fun i => facet_no (mh_nbr m (fa_id f) i)) [0; 1; 2; 3])) (mh_quads m));
   ("TRIANGLENEIGHBORS"%string, map (fun f => row_text (map (fun i => facet_no (mh_nbr m (fa_id f) i)) [0; 1; 2])) (mh_tris m));
   ("SIZEFUNCTION"%string, map (fun v => fields (map fixed5 [msize v])) (mh_verts m))].
Lemma txt_body id m : txt_file id m = (chars "MESH " ++ int_text id) ++ newline ++ body (txt_sections m).
Proof.
  unfold OutModel.txt_file, body, txt_sections. cbn [flat_map fst snd]. rewrite !map_map, app_nil_r. rewrite <- !app_assoc. reflexivity.
Qed.
Lemma map_rows {A} (g : A -> text) l : (forall x, one_line (g x) = true) -> Forall (fun b => one_line b = true) (map g l).
Proof. intros H. apply Forall_forall. intros b I. apply in_map_iff in I. destruct I as (x & <- & _). apply H. Qed.
Lemma txt_good m : Forall (fun s => no_blank (fst s) = true /\ Forall (fun b => one_line b = true) (snd s)) (txt_sections m).
Proof. unfold txt_sections. repeat (constructor; [split; [reflexivity|]; apply map_rows; intros; first [apply row_line|apply point_line]|]). constructor. Qed.
Lemma read_txt_file id m : read_txt (txt_file id m) = Some (id, map (fun s => (chars (fst s), snd s)) (txt_sections m)).
Proof.
  unfold read_txt. rewrite txt_body, lines_line by (rewrite one_line_app; apply (number_line _ (int_number id))).
  change (starts (chr "MESH ") (chars "MESH " ++ int_text id)) with (Some (int_text id)). cbv iota beta. rewrite read_int_text, (read_body _ (txt_good m) _ (body_lines _ (txt_good m))). reflexivity.
Qed.

Lemma rows_read {A} (g : A -> list Z) l : (forall x, In x l -> g x <> []) -> map (fun x => read_row (row_text (g x))) l = map (fun x => Some (g x)) l.
Proof. intros H. apply map_ext_in. intros x I. apply read_row_text. exact (H x I). Qed.
Lemma shapes_nonempty f : shape_row vidx f <> [].
Proof. unfold shape_row. destruct (fa_sh f); discriminate. Qed.

(* C54: read back, the text file of every mesh has the number of the mesh and, in this order, one
   section for the vertices, the four kinds of edges, the elements, their neighbours and the size
   function; every row of integers is exact, coordinates and sizes are those of the mesh up to half of
   the fifth decimal *)
Theorem C54_txt id m : exists ss, read_txt (txt_file id m) = Some (id, ss) /\
  map fst ss = map chr ["VERTICES"; "INTERIOREDGES"; "BOUNDARYEDGES"; "INTERFACEEDGES"; "FRONT"; "QUADS"; "TRIANGLES"; "QUADNEIGHBORS"; "TRIANGLENEIGHBORS"; "SIZEFUNCTION"]%string /\
  exists s0 s1 s2 s3 s4 s5 s6 s7 s8 s9, map snd ss = [s0; s1; s2; s3; s4; s5; s6; s7; s8; s9] /\
  Forall2 (fun r v => exists x y, read_point r = Some [x; y] /\ (Qabs (x - vx (mh_pos m v)) <= 1 # 200000)%Q /\ (Qabs (y - vy (mh_pos m v)) <= 1 # 200000)%Q) s0 (mh_verts m) /\
  map read_row s1 = map (fun e => Some [vidx (ed_1 e); vidx (ed_2 e); facet_no (ed_l e); facet_no (ed_r e)]) (valid_interior_edges m) /\
  map read_row s2 = map (fun e => Some [vidx (ed_1 e); vidx (ed_2 e); facet_no (ed_l e); ed_col e]) (valid_boundary_edges m) /\
  map read_row s3 = map (fun e => Some ([vidx (ed_1 e); vidx (ed_2 e); facet_no (ed_l e)] ++ twin_row twin e)) (interface_edges m) /\
  map read_row s4 = map (fun e => Some [vidx (ed_1 e); vidx (ed_2 e); (-1)%Z]) (front_edges m) /\
  map read_row s5 = map (fun f => Some (map vidx (corners (fa_sh f)) ++ [fa_col f])) (mh_quads m) /\
  map read_row s6 = map (fun f => Some (map vidx (corners (fa_sh f)) ++ [fa_col f])) (mh_tris m) /\
  map read_row s7 = map (fun f => Some (map (fun i => facet_no (mh_nbr m (fa_id f) i)) [0; 1; 2; 3])) (mh_quads m) /\
  map read_row s8 = map (fun f => Some (map (fun i => facet_no (mh_nbr m (fa_id f) i)) [0; 1; 2])) (mh_tris m) /\
  Forall2 (fun r v => exists h, read_point r = Some [h] /\ (Qabs (h - msize v) <= 1 # 200000)%Q) s9 (mh_verts m).
Proof.
  eexists. split; [apply read_txt_file|]. split; [reflexivity|]. do 10 eexists. split; [reflexivity|].
  split.
  { cbn [snd]. induction (mh_verts m) as [|v l IH]; [constructor|]. cbn [map]. constructor; [|exact IH]. eexists. eexists. split; [apply (read_point_text [_; _]); discriminate|]. split; apply shown_close. }
  cbn [snd]. do 8 (split; [rewrite map_map; apply rows_read; intros x _; first [discriminate|apply shapes_nonempty]|]).
  induction (mh_verts m) as [|v l IH]; [constructor|]. cbn [map]. constructor; [|exact IH]. eexists. split; [apply (read_point_text [_]); discriminate|]. apply shown_close.
Qed.
End Txt.

(* coordinates are lost here too *)
Theorem C54_coordinates_refuted : exists m r, txt_file (fun v => Z.of_nat v) (fun f => Z.of_nat f) (fun _ => (0, 0)%Z) (fun _ => 1%Q) 0 m = r /\
  (exists f, facets m = [f] /\ 0 < fa_area (mh_pos m) f)%Q /\
  match lines r with _ :: _ :: a :: b :: c :: _ => a = b /\ b = c | _ => False end.
Proof. exists tiny_mesh. eexists. split; [reflexivity|]. split; [eexists; split; reflexivity|]. vm_compute. split; reflexivity. Qed.
Example C54_case : 
  let m := setup_facet_connectivity house in
  firstn 9 (lines (txt_file (vertex_indices m (fun _ => (-1)%Z)) (element_indices m (fun _ => (-1)%Z)) (fun _ => (0, 0)%Z) (fun _ => (1 # 3)%Q) 2 m)) =
  map chr ["MESH 2"; "VERTICES 5"; "0.00000,0.00000"; "2.00000,0.00000"; "2.00000,2.00000"; "0.00000,2.00000"; "1.00000,4.00000"; "INTERIOREDGES 1"; "   2,   3,   0,   1"]%string.
Proof. vm_compute. reflexivity. Qed.
(* the hypothesis on the text of a double holds for fixed notation *)
Example C53_plain_case : forall q, fixed5 q <> [] /\ forall c, In c (fixed5 q) -> is_blank c = false /\ c <> "<"%char.
Proof.
  intros q. destruct (fixed5_number q) as [A B]. split; [exact A|]. intros c I. rewrite forallb_forall in B. specialize (B c I). unfold is_blank.
  rewrite (numeric_not c " "%char B eq_refl), (numeric_not c (ascii_of_nat 10) B eq_refl). split; [reflexivity|]. intros ->. discriminate.
Qed.

Print Assumptions C53_vtu.
Print Assumptions C53_cells.
Print Assumptions C53_coordinates_refuted.
Print Assumptions C53_path_partial.
Print Assumptions C53_path_refuted.
Print Assumptions C53_unwritten_refuted.
Print Assumptions C54_txt.
Print Assumptions C54_coordinates_refuted.
