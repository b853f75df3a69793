(* Reading the text file of a mesh with convert2foam.py. *)
From Coq Require Import Ascii String Lia.
From Verif Require Import Base GeomModel MeshModel OutModel OutSpec OutProofs OutProps FoamModel.
Open Scope nat_scope.
Open Scope list_scope.

Lemma same_text_refl a : same_text a a = true.
Proof. unfold same_text. destruct (list_eq_dec ascii_dec a a); congruence. Qed.
Lemma same_text_head a b x y : hd_error a = x -> hd_error b = y -> x <> y -> same_text a b = false.
Proof. intros <- <- N. unfold same_text. destruct (list_eq_dec ascii_dec a b); congruence. Qed.

(* rows of numbers *)
Definition row_char (c : ascii) : bool := numeric c || Ascii.eqb c " "%char || Ascii.eqb c ","%char.
Definition is_row (t : text) : bool := forallb row_char t.
Lemma number_row t : is_number t -> is_row t = true.
Proof.
  intros [_ H]. unfold is_row. rewrite forallb_forall in *. intros c I. unfold row_char. rewrite (H c I). reflexivity.
Qed.
Lemma is_row_app a b : is_row (a ++ b) = is_row a && is_row b.
Proof. apply forallb_app. Qed.
Lemma blanks_row k : is_row (repeat " "%char k) = true.
Proof. induction k; [reflexivity|exact IHk]. Qed.
Lemma setw_row n z : is_row (setw n (int_text z)) = true.
Proof. unfold setw. rewrite is_row_app, blanks_row, (number_row _ (int_number z)). reflexivity. Qed.
Lemma fields_row ws : Forall (fun w => is_row w = true) ws -> is_row (fields ws) = true.
Proof.
  induction 1 as [|w [|v r] W F IH]; [reflexivity|exact W|]. change (fields (w :: v :: r)) with (w ++ ","%char :: fields (v :: r)).
  rewrite is_row_app, W. cbn [andb]. exact IH.
Qed.
Lemma row_text_row zs : is_row (row_text zs) = true.
Proof. apply fields_row, Forall_forall. intros w I. apply in_map_iff in I. destruct I as (z & <- & _). apply setw_row. Qed.
Lemma point_row qs : is_row (fields (map fixed5 qs)) = true.
Proof. apply fields_row, Forall_forall. intros w I. apply in_map_iff in I. destruct I as (z & <- & _). apply number_row, fixed5_number. Qed.

Definition letter (c : ascii) : bool := negb (row_char c) && negb (Ascii.eqb c "#"%char) && negb (Ascii.eqb c (ascii_of_nat 10)).
Definition is_name (t : text) : bool := match t with c :: _ => letter c | [] => false end.
Lemma row_word t name : is_row t = true -> is_name name = true -> same_text (word0 t) name = false.
Proof.
  intros R N. destruct name as [|x name]; [discriminate|]. cbn in N. unfold letter in N. apply andb_true_iff in N. destruct N as [N L]. apply andb_true_iff in N. destruct N as [N _].
  unfold word0. destruct t as [|c t].
  - cbn [split_at app]. apply same_text_head with (x := Some (ascii_of_nat 10)) (y := Some x); try reflexivity. intros E. injection E as <-. discriminate.
  - cbn [is_row forallb] in R. apply andb_true_iff in R. destruct R as [R _]. cbn [split_at]. destruct (Ascii.eqb_spec c " "%char) as [->|B].
    + apply same_text_head with (x := None) (y := Some x); try reflexivity. discriminate.
    + destruct (split_at " "%char t) as [a [b|]]; apply same_text_head with (x := Some c) (y := Some x); try reflexivity; intros E; injection E as <-; rewrite R in N; discriminate.
Qed.
Lemma quiet_comment t : forallb (fun c => negb (Ascii.eqb c "#"%char)) t = true -> is_comment t = false.
Proof.
  intros H. unfold is_comment. induction t as [|c t IH]; [reflexivity|]. cbn in *. apply andb_true_iff in H. destruct H as [H1 H2].
  destruct (Ascii.eqb c " "%char); cbn [negb]; [apply IH, H2|]. apply negb_true_iff, H1.
Qed.
Lemma row_comment t : is_row t = true -> is_comment t = false.
Proof.
  intros H. apply quiet_comment. unfold is_row in H. rewrite forallb_forall in *. intros c I. specialize (H c I).
  destruct (Ascii.eqb_spec c "#"%char) as [->|]; [discriminate|reflexivity].
Qed.

(* headers *)
Definition good_name (s : string) : bool := no_blank s && is_name (chars s).
Lemma header_word0 name n : no_blank name = true -> word0 (header name n) = chars name.
Proof.
  intros N. unfold word0, header. rewrite split_word; [reflexivity|]. unfold no_blank in N. rewrite forallb_forall in *. intros c I. specialize (N c I). apply andb_true_iff in N. apply N.
Qed.
Lemma split_none s t : forallb (fun c => negb (Ascii.eqb c s)) t = true -> split_at s t = (t, None).
Proof.
  induction t as [|c t IH]; intros H; [reflexivity|]. cbn in *. apply andb_true_iff in H. destruct H as [A B]. apply negb_true_iff in A. rewrite A, (IH B). reflexivity.
Qed.
Lemma number_blank t : is_number t -> forallb (fun c => negb (Ascii.eqb c " "%char)) t = true.
Proof.
  intros [_ H]. rewrite forallb_forall in *. intros c I. rewrite (numeric_not c " "%char (H c I) eq_refl). reflexivity.
Qed.
Lemma py_int_text z : py_int (int_text z) = Ok z.
Proof. unfold py_int. rewrite strip_number by apply int_number. rewrite read_int_text. reflexivity. Qed.
Lemma word1_text (w : text) z : forallb (fun c => negb (Ascii.eqb c " "%char)) w = true -> word1_int (w ++ " "%char :: int_text z) = Ok z.
Proof.
  intros W. unfold word1_int, word1. rewrite (split_word _ _ _ W). cbn [snd]. rewrite (split_none _ _ (number_blank _ (int_number z))). cbn [fst obind]. apply py_int_text.
Qed.
Lemma dec_text n : dec n = int_text (Z.of_N n).
Proof. destruct n; reflexivity. Qed.
Lemma header_word1 name n : no_blank name = true -> word1_int (header name n) = Ok (Z.of_nat n).
Proof.
  intros N. unfold header. rewrite dec_text, nat_N_Z. apply word1_text. unfold no_blank in N. rewrite forallb_forall in *. intros c I. specialize (N c I). apply andb_true_iff in N. apply N.
Qed.

(* a file made of sections *)
Definition body_rows (ss : list (string * list text)) : list text := flat_map (fun s => header (fst s) (List.length (snd s)) :: snd s) ss.
Definition fine (s : string * list text) : Prop :=
  no_blank (fst s) = true /\ is_name (chars (fst s)) = true /\ forallb (fun c => negb (Ascii.eqb c "#"%char)) (chars (fst s)) = true /\ Forall (fun b => is_row b = true) (snd s).
Lemma row_one_line t : is_row t = true -> one_line t = true.
Proof.
  unfold is_row, one_line. rewrite !forallb_forall. intros H c I. specialize (H c I). destruct (Ascii.eqb_spec c (ascii_of_nat 10)) as [->|]; [discriminate|reflexivity].
Qed.
Lemma body_lines_eq ss : Forall fine ss -> lines (body ss) = body_rows ss.
Proof.
  induction 1 as [|[name bs] ss (N & _ & _ & F) _ IH]; [reflexivity|]. cbn [fst snd] in *. change (body ((name, bs) :: ss)) with (section name (map (fun b => b ++ newline) bs) ++ body ss).
  rewrite (lines_section _ _ _ N); [|apply Forall_forall; intros b B; apply row_one_line; rewrite Forall_forall in F; apply F, B].
  rewrite IH. unfold body_rows. cbn [flat_map fst snd app]. reflexivity.
Qed.
Lemma header_comment name n : forallb (fun c => negb (Ascii.eqb c "#"%char)) (chars name) = true -> is_comment (header name n) = false.
Proof.
  intros H. apply quiet_comment. unfold header. rewrite forallb_app, H. cbn [andb]. assert (R := number_row _ (dec_number (N.of_nat n))).
  change (forallb (fun c => negb (Ascii.eqb c "#"%char)) (dec (N.of_nat n)) = true). unfold is_row in R. rewrite forallb_forall in R. apply forallb_forall. intros c I. specialize (R c I). destruct (Ascii.eqb_spec c "#"%char) as [->|]; [discriminate|reflexivity].
Qed.
Lemma comments_rows ss : Forall fine ss -> filter (fun x => negb (is_comment x)) (body_rows ss) = body_rows ss.
Proof.
  induction 1 as [|[name bs] ss (N & _ & C & F) _ IH]; [reflexivity|]. cbn [fst snd] in *. unfold body_rows in *. cbn [flat_map fst snd app filter].
  rewrite (header_comment _ _ C). cbn [negb]. f_equal. rewrite filter_app, IH. f_equal.
  clear - F. induction F as [|b bs B F IH]; [reflexivity|]. cbn [filter]. rewrite (row_comment b B). cbn [negb]. rewrite IH. reflexivity.
Qed.
Definition not_mesh (s : string * list text) : Prop := same_text (chars (fst s)) (chars "MESH") = false.
Fixpoint lookup_section (name : text) (ss : list (string * list text)) : option (list text) :=
  match ss with [] => None | s :: r => if same_text (chars (fst s)) name then Some (snd s) else lookup_section name r end.
(* sections of a mesh that has not been reached are passed over; the first of its own sections is found *)
Lemma rows_skipped p id name bs ls : (p = true -> is_name name = true) -> Forall (fun b => is_row b = true) bs -> find_section p id name (bs ++ ls) = find_section p id name ls.
Proof.
  intros N. induction 1 as [|b bs B F IH]; [reflexivity|]. cbn [app find_section]. rewrite (row_word b (chars "MESH") B eq_refl). cbn [obind].
  destruct p; [rewrite (row_word b name B (N eq_refl))|]; cbn [andb]; exact IH.
Qed.
Lemma sections_skipped id name ss ls : Forall fine ss -> Forall not_mesh ss -> find_section false id name (body_rows ss ++ ls) = find_section false id name ls.
Proof.
  intros F M. induction ss as [|[nm bs] ss IH]; [reflexivity|]. inversion F as [|? ? (F1 & F2 & F3 & F4) F']. inversion M as [|? ? M1 M']. subst. cbn [fst snd] in *. unfold not_mesh in M1. cbn [fst] in M1.
  unfold body_rows in *. cbn [flat_map fst snd]. rewrite <- app_assoc. cbn [app find_section]. rewrite (header_word0 _ _ F1), M1. cbn [obind andb].
  rewrite rows_skipped by (assumption || discriminate). apply IH; assumption.
Qed.
Lemma section_reached id name ss ls bs : Forall fine ss -> Forall not_mesh ss -> is_name name = true -> lookup_section name ss = Some bs ->
  exists r, find_section true id name (body_rows ss ++ ls) = Ok (Some (bs ++ r, Z.of_nat (List.length bs))).
Proof.
  intros F M N. induction ss as [|[nm b] ss IH]; [discriminate|]. inversion F as [|? ? (F1 & F2 & F3 & F4) F']. inversion M as [|? ? M1 M']. subst. cbn [fst snd] in *. unfold not_mesh in M1. cbn [fst] in M1.
  cbn [lookup_section fst snd]. unfold body_rows in *. cbn [flat_map fst snd]. rewrite <- app_assoc. cbn [app find_section]. rewrite (header_word0 _ _ F1), M1. cbn [obind andb]. destruct (same_text (chars nm) name).
  - intros E. injection E as ->. rewrite (header_word1 _ _ F1). cbn [obind]. eexists. reflexivity.
  - intros E. rewrite rows_skipped by auto. apply IH; assumption.
Qed.
Lemma section_rows_among id name ss l0 ls : Forall fine ss -> Forall not_mesh ss -> is_name (chars name) = true ->
  word0 l0 = chars "MESH" -> word1_int l0 = Ok id -> same_text (chars "MESH") (chars name) = false -> lookup_section (chars name) ss <> None ->
  obind (find_section false id (chars name) ((l0 :: body_rows ss) ++ ls)) (fun o => match o with
    | None => Ok []
    | Some (r, n) => if Nat.leb (Z.to_nat n) (List.length r) then Ok (firstn (Z.to_nat n) r) else Throw end) = Ok match lookup_section (chars name) ss with Some bs => bs | None => [] end.
Proof.
  intros F M N W0 W1 D L. cbn [app find_section]. rewrite W0, same_text_refl, W1. cbn [obind orb]. rewrite Z.eqb_refl, D. cbn [andb].
  destruct (lookup_section (chars name) ss) as [bs|] eqn:E; [|congruence]. destruct (section_reached id _ _ ls _ F M N E) as [r ->]. cbn [obind].
  rewrite Nat2Z.id. rewrite (proj2 (Nat.leb_le _ _)) by (rewrite app_length; lia). rewrite firstn_app, firstn_all, Nat.sub_diag. cbn [firstn]. rewrite app_nil_r. reflexivity.
Qed.
Lemma body_lines_app ss t : Forall fine ss -> lines (body ss ++ t) = body_rows ss ++ lines t.
Proof.
  induction 1 as [|[name bs] ss (N & _ & _ & F) _ IH]; [reflexivity|]. cbn [fst snd] in *. change (body ((name, bs) :: ss)) with (section name (map (fun b => b ++ newline) bs) ++ body ss). rewrite <- app_assoc.
  rewrite (lines_section _ _ _ N); [|apply Forall_forall; intros b B; apply row_one_line; rewrite Forall_forall in F; apply F, B].
  rewrite IH. unfold body_rows. cbn [flat_map fst snd app]. rewrite <- app_assoc. reflexivity.
Qed.
Lemma mesh_ids l0 id ss : Forall fine ss -> Forall not_mesh ss -> word0 l0 = chars "MESH" -> word1_int l0 = Ok id -> gather_mesh_ids (l0 :: body_rows ss) = Ok [id].
Proof.
  intros F M W0 W1. unfold gather_mesh_ids. cbn [filter]. rewrite W0, same_text_refl. cbn [map].
  assert (E : filter (fun l => same_text (word0 l) (chars "MESH")) (body_rows ss) = []).
  { clear - F M. induction ss as [|[nm bs] ss IH]; [reflexivity|]. inversion F as [|? ? (F1 & F2 & F3 & F4) F']. inversion M as [|? ? M1 M']. subst. cbn [fst snd] in *. unfold not_mesh in M1. cbn [fst] in M1.
    unfold body_rows in *. cbn [flat_map fst snd app filter]. rewrite (header_word0 _ _ F1), M1, filter_app, (IH F' M'), app_nil_r.
    clear - F4. induction F4 as [|b bs B F IH]; [reflexivity|]. cbn [filter]. rewrite (row_word b (chars "MESH") B eq_refl). exact IH. }
  rewrite E. cbn [map collect]. rewrite W1. reflexivity.
Qed.

(* rows *)
Lemma collect_some {A} (l : list (option A)) xs : all_some l = Some xs -> collect (map (fun o => match o with Some x => Ok x | None => Throw end) l) = Ok xs.
Proof.
  revert xs. induction l as [|[x|] l IH]; intros xs H; cbn in *; [injection H as <-; reflexivity| |discriminate].
  destruct (all_some l) as [ys|]; [|discriminate]. injection H as <-. rewrite (IH ys eq_refl). reflexivity.
Qed.
Lemma int_fields_text k zs : zs <> [] -> List.length zs = k -> int_fields k (row_text zs) = Ok zs.
Proof.
  intros N L. unfold int_fields. assert (R := read_row_text zs N). unfold read_row in R. apply collect_some in R. rewrite map_map in R. change (collect (map py_int (commas (row_text zs))) = Ok zs) in R. rewrite R. cbn [obind]. rewrite L, Nat.eqb_refl. reflexivity.
Qed.
Lemma float_fields_text k qs : qs <> [] -> List.length qs = k -> float_fields k (fields (map fixed5 qs)) = Ok (map shown qs).
Proof.
  intros N L. unfold float_fields. assert (R := read_point_text qs N). unfold read_point in R. apply collect_some in R. rewrite map_map in R. change (collect (map py_float (commas (fields (map fixed5 qs)))) = Ok (map shown qs)) in R. rewrite R. cbn [obind]. rewrite map_length, L, Nat.eqb_refl. reflexivity.
Qed.
Lemma collect_map {A B} (f : A -> outcome B) (g : A -> B) l : (forall x, In x l -> f x = Ok (g x)) -> collect (map f l) = Ok (map g l).
Proof.
  induction l as [|a l IH]; intros H; [reflexivity|]. cbn [map collect]. rewrite (H a (or_introl eq_refl)), IH by (intros x X; apply H; right; exact X). reflexivity.
Qed.

Section Reading.
Variable vidx fidx : nat -> Z.
Variable twin : nat -> Z * Z.
Variable msize : nat -> Q.
Notation txt := (txt_file vidx fidx twin msize).
Notation no := (facet_no fidx).
(* the arrays of a mesh *)
Definition arrays_of (m : mesh) : tqm :=
  TQ (map (fun v => (shown (vx (mh_pos m v)), shown (vy (mh_pos m v)))) (mh_verts m))
     (map (fun e => (vidx (ed_1 e), vidx (ed_2 e))) (valid_interior_edges m))
     (map (fun e => (no (ed_l e), no (ed_r e))) (valid_interior_edges m))
     (map (fun e => (vidx (ed_1 e), vidx (ed_2 e))) (valid_boundary_edges m))
     (map (fun e => no (ed_l e)) (valid_boundary_edges m))
     (map ed_col (valid_boundary_edges m))
     (map (fun f => map vidx (corners (fa_sh f))) (mh_quads m))
     (map (fun f => map vidx (corners (fa_sh f))) (mh_tris m)).
Definition well_shaped (m : mesh) : Prop :=
  (forall f, In f (mh_quads m) -> List.length (corners (fa_sh f)) = 4) /\ (forall f, In f (mh_tris m) -> List.length (corners (fa_sh f)) = 3).

Lemma sections_fine m : Forall fine (txt_sections vidx fidx twin msize m) /\ Forall not_mesh (txt_sections vidx fidx twin msize m).
Proof.
  split; unfold txt_sections.
  - repeat (constructor; [repeat split; apply Forall_forall; intros b I; apply in_map_iff in I; destruct I as (x & <- & _); first [apply row_text_row|apply point_row]|]). constructor.
  - repeat (constructor; [reflexivity|]). constructor.
Qed.
Lemma txt_lines id m : clear_comments (lines (txt id m)) = (chars "MESH " ++ int_text id) :: body_rows (txt_sections vidx fidx twin msize m).
Proof.
  rewrite txt_body, lines_line by (rewrite one_line_app; apply (number_line _ (int_number id))).
  rewrite (body_lines_eq _ (proj1 (sections_fine m))). cbn [clear_comments]. rewrite (comments_rows _ (proj1 (sections_fine m))). reflexivity.
Qed.
Lemma mesh_line id : word0 (chars "MESH " ++ int_text id) = chars "MESH" /\ word1_int (chars "MESH " ++ int_text id) = Ok id.
Proof. split; [|apply (word1_text (chars "MESH") id eq_refl)]. unfold word0. change (chars "MESH " ++ int_text id) with (chars "MESH" ++ " "%char :: int_text id). rewrite split_word by reflexivity. reflexivity. Qed.
Lemma flat_map_map {A B C} (f : B -> list C) (g : A -> B) (h : A -> C) l : (forall x, f (g x) = [h x]) -> flat_map f (map g l) = map h l.
Proof. intros H. induction l as [|a l IH]; [reflexivity|]. cbn [map flat_map]. rewrite H, IH. reflexivity. Qed.
(* a mesh somewhere in a file of several meshes *)
Definition block (id : Z) (m : mesh) : list text := (chars "MESH " ++ int_text id) :: body_rows (txt_sections vidx fidx twin msize m).
Lemma block_lines id m t : lines (txt id m ++ t) = block id m ++ lines t.
Proof.
  rewrite txt_body, <- !app_assoc. rewrite (app_assoc (chars "MESH ")), lines_line by (rewrite one_line_app; apply (number_line _ (int_number id))). unfold block. cbn [app]. f_equal.
  apply body_lines_app, sections_fine.
Qed.
Lemma block_comment id m : filter (fun x => negb (is_comment x)) (block id m) = block id m.
Proof. unfold block. cbn [filter]. replace (is_comment (chars "MESH " ++ int_text id)) with false by reflexivity. cbn [negb]. rewrite (comments_rows _ (proj1 (sections_fine m))). reflexivity. Qed.
Lemma clear_block id m ls : clear_comments (block id m ++ ls) = block id m ++ filter (fun x => negb (is_comment x)) ls.
Proof.
  unfold block. cbn [app clear_comments]. rewrite filter_app, (comments_rows _ (proj1 (sections_fine m))). reflexivity.
Qed.
Lemma clear_blocks (others : list (Z * mesh)) id m ls :
  clear_comments (flat_map (fun o => block (fst o) (snd o)) others ++ block id m ++ ls) = flat_map (fun o => block (fst o) (snd o)) others ++ block id m ++ filter (fun x => negb (is_comment x)) ls.
Proof.
  destruct others as [|[k o] r]; [apply clear_block|]. cbn [flat_map fst snd]. rewrite <- !app_assoc, clear_block. f_equal. rewrite !filter_app, block_comment. f_equal.
  induction r as [|[k' o'] r IH]; [reflexivity|]. cbn [flat_map fst snd]. rewrite filter_app, block_comment, IH. reflexivity.
Qed.
Lemma others_lines (others : list (Z * mesh)) t : lines (flat_map (fun o => txt (fst o) (snd o)) others ++ t) = flat_map (fun o => block (fst o) (snd o)) others ++ lines t.
Proof. induction others as [|[k o] r IH]; [reflexivity|]. cbn [flat_map fst snd]. rewrite <- !app_assoc, block_lines, IH. reflexivity. Qed.
(* a mesh with another id is passed over *)
Lemma block_skipped id name k m ls : k <> id -> find_section false id name (block k m ++ ls) = find_section false id name ls.
Proof.
  intros N. destruct (sections_fine m) as [F M]. destruct (mesh_line k) as [W0 W1]. unfold block. cbn [app find_section]. rewrite W0, same_text_refl, W1. cbn [obind orb].
  rewrite (proj2 (Z.eqb_neq _ _) N). cbn [andb]. apply sections_skipped; assumption.
Qed.
Lemma others_skipped id name (others : list (Z * mesh)) ls : (forall k o, In (k, o) others -> k <> id) ->
  find_section false id name (flat_map (fun o => block (fst o) (snd o)) others ++ ls) = find_section false id name ls.
Proof.
  induction others as [|[k o] r IH]; intros N; [reflexivity|]. cbn [flat_map fst snd]. rewrite <- app_assoc, block_skipped by (apply (N k o); left; reflexivity). apply IH. intros k' o' I. apply (N k' o'). right. exact I.
Qed.
Lemma reads_among (others : list (Z * mesh)) id m post : well_shaped m -> (forall k o, In (k, o) others -> k <> id) ->
  read_arrays id (clear_comments (lines (flat_map (fun o => txt (fst o) (snd o)) others ++ txt id m ++ post))) = Ok (arrays_of m).
Proof.
  intros [WQ WT] NO. destruct (sections_fine m) as [F M]. destruct (mesh_line id) as [W0 W1].
  assert (R : forall name, is_name (chars name) = true -> same_text (chars "MESH") (chars name) = false -> lookup_section (chars name) (txt_sections vidx fidx twin msize m) <> None ->
    section_rows id name (clear_comments (lines (flat_map (fun o => txt (fst o) (snd o)) others ++ txt id m ++ post))) = Ok match lookup_section (chars name) (txt_sections vidx fidx twin msize m) with Some bs => bs | None => [] end).
  { intros name N D L. rewrite others_lines, block_lines, clear_blocks. unfold section_rows. rewrite others_skipped by assumption. apply section_rows_among; assumption. }
  unfold read_arrays, int_table.
  rewrite (R "VERTICES"%string eq_refl eq_refl) by discriminate. rewrite (R "INTERIOREDGES"%string eq_refl eq_refl) by discriminate. rewrite (R "BOUNDARYEDGES"%string eq_refl eq_refl) by discriminate.
  rewrite (R "QUADS"%string eq_refl eq_refl) by discriminate. rewrite (R "TRIANGLES"%string eq_refl eq_refl) by discriminate.
  unfold txt_sections. cbn [lookup_section fst snd].
  repeat match goal with |- context [same_text (chars ?a) (chars ?b)] => let v := eval vm_compute in (same_text (chars a) (chars b)) in change (same_text (chars a) (chars b)) with v end.
  cbv iota. cbn [obind]. rewrite !map_map.
  rewrite (collect_map _ (fun v => map shown [vx (mh_pos m v); vy (mh_pos m v)])) by (intros v _; apply float_fields_text; [discriminate|reflexivity]).
  rewrite (collect_map _ (fun e => [vidx (ed_1 e); vidx (ed_2 e); no (ed_l e); no (ed_r e)])) by (intros e _; apply int_fields_text; [discriminate|reflexivity]).
  rewrite (collect_map _ (fun e => [vidx (ed_1 e); vidx (ed_2 e); no (ed_l e); ed_col e])) by (intros e _; apply int_fields_text; [discriminate|reflexivity]).
  rewrite (collect_map _ (shape_row vidx) (mh_quads m)) by (intros f I; apply int_fields_text; [apply shapes_nonempty|unfold shape_row; rewrite app_length, map_length, (WQ f I); reflexivity]).
  rewrite (collect_map _ (shape_row vidx) (mh_tris m)) by (intros f I; apply int_fields_text; [apply shapes_nonempty|unfold shape_row; rewrite app_length, map_length, (WT f I); reflexivity]).
  cbn [obind]. unfold arrays_of. f_equal. rewrite !map_map. f_equal.
  - apply flat_map_map. reflexivity.
  - apply flat_map_map. reflexivity.
  - apply flat_map_map. reflexivity.
  - apply flat_map_map. reflexivity.
  - apply flat_map_map. reflexivity.
  - apply flat_map_map. reflexivity.
  - apply map_ext_in. intros f I. unfold shape_row. assert (L : List.length (map vidx (corners (fa_sh f))) = 4) by (rewrite map_length; apply (WQ f I)). rewrite firstn_app, <- L, Nat.sub_diag, firstn_all. cbn [firstn]. apply app_nil_r.
  - apply map_ext_in. intros f I. unfold shape_row. assert (L : List.length (map vidx (corners (fa_sh f))) = 3) by (rewrite map_length; apply (WT f I)). rewrite firstn_app, <- L, Nat.sub_diag, firstn_all. cbn [firstn]. apply app_nil_r.
Qed.
Lemma reads id m : well_shaped m -> read_arrays id (clear_comments (lines (txt id m))) = Ok (arrays_of m).
Proof. intros W. assert (R := reads_among [] id m [] W (fun k o I => match I with end)). cbn [flat_map app] in R. rewrite app_nil_r in R. exact R. Qed.
Lemma converts argsort z id m : well_shaped m -> convert argsort z (txt id m) = obind (arrange argsort (arrays_of m)) (foam_mesh z).
Proof.
  intros W. unfold convert. cbv zeta. assert (G : gather_mesh_ids (clear_comments (lines (txt id m))) = Ok [id]).
  { rewrite txt_lines. destruct (sections_fine m) as [F M]. destruct (mesh_line id) as [W0 W1]. apply mesh_ids; assumption. }
  rewrite G. cbn [obind]. rewrite (reads id m W). reflexivity.
Qed.
End Reading.
