(* Property theorems C59: the OpenFOAM mesh made by scripts/convert2foam.py. *)
From Coq Require Import Ascii String Lia Lqa Permutation Sorted Qabs.
From Verif Require Import Base GeomModel Chain MeshModel MeshSpec MeshProofs MeshCheck MeshProps OutModel OutSpec OutProofs OutProps FoamModel FoamSpec FoamProofs FoamRead FoamMesh FoamPatch.
Open Scope Z_scope.
Open Scope list_scope.

(* C59, reading: the script gets from the text file of a mesh the arrays of the mesh, coordinates as they
   were written *)
Theorem C59_reads argsort z vidx fidx twin msize id m :
  (forall f, In f (mh_quads m) -> length (corners (fa_sh f)) = 4%nat) -> (forall f, In f (mh_tris m) -> length (corners (fa_sh f)) = 3%nat) ->
  convert argsort z (txt_file vidx fidx twin msize id m) =
  obind (arrange argsort (TQ (map (fun v => (shown (vx (mh_pos m v)), shown (vy (mh_pos m v)))) (mh_verts m))
     (map (fun e => (vidx (ed_1 e), vidx (ed_2 e))) (valid_interior_edges m)) (map (fun e => (facet_no fidx (ed_l e), facet_no fidx (ed_r e))) (valid_interior_edges m))
     (map (fun e => (vidx (ed_1 e), vidx (ed_2 e))) (valid_boundary_edges m)) (map (fun e => facet_no fidx (ed_l e)) (valid_boundary_edges m)) (map ed_col (valid_boundary_edges m))
     (map (fun f => map vidx (corners (fa_sh f))) (mh_quads m)) (map (fun f => map vidx (corners (fa_sh f))) (mh_tris m)))) (foam_mesh z).
Proof. intros Q T. apply converts. split; assumption. Qed.

(* C59, reading one of several meshes: the functions that read the arrays of the mesh [id] find them behind
   meshes with other ids, whatever follows *)
Theorem C59_reads_among vidx fidx twin msize others id m post :
  (forall f, In f (mh_quads m) -> length (corners (fa_sh f)) = 4%nat) -> (forall f, In f (mh_tris m) -> length (corners (fa_sh f)) = 3%nat) ->
  (forall k o, In (k, o) others -> k <> id) ->
  read_arrays id (clear_comments (lines (flat_map (fun o => txt_file vidx fidx twin msize (fst o) (snd o)) others ++ txt_file vidx fidx twin msize id m ++ post))) =
  Ok (TQ (map (fun v => (shown (vx (mh_pos m v)), shown (vy (mh_pos m v)))) (mh_verts m))
     (map (fun e => (vidx (ed_1 e), vidx (ed_2 e))) (valid_interior_edges m)) (map (fun e => (facet_no fidx (ed_l e), facet_no fidx (ed_r e))) (valid_interior_edges m))
     (map (fun e => (vidx (ed_1 e), vidx (ed_2 e))) (valid_boundary_edges m)) (map (fun e => facet_no fidx (ed_l e)) (valid_boundary_edges m)) (map ed_col (valid_boundary_edges m))
     (map (fun f => map vidx (corners (fa_sh f))) (mh_quads m)) (map (fun f => map vidx (corners (fa_sh f))) (mh_tris m))).
Proof. intros Q T O. apply reads_among; [split; assumption|exact O]. Qed.

(* the lists of a plane mesh become a mesh of prisms *)
Definition points_in (fo : foam) (f : list Z) : Prop := forall v, In v f -> 0 <= v < Z.of_nat (length (fo_points fo)).
Record prisms (z : Q) (t : tqm) (fo : foam) : Prop := {
  (* two layers of points *)
  pr_points : fo_points fo = map (fun p => (p, 0%Q)) (tq_verts t) ++ map (fun p => (p, z)) (tq_verts t);
  (* every face has three or four vertices, which exist *)
  pr_faces : forall f, In f (fo_faces fo) -> (length f = 3 \/ length f = 4)%nat /\ points_in fo f;
  pr_count : length (fo_faces fo) = (length (tq_intr t) + length (tq_bdry t) + 2 * length (tq_quads t ++ tq_tris t))%nat;
  (* every face has an owner, the interior faces come first and have a neighbour with a higher number *)
  pr_owner : length (fo_owner fo) = length (fo_faces fo) /\ forall c, In c (fo_owner fo) -> 0 <= c < Z.of_nat (length (tq_quads t ++ tq_tris t));
  pr_nbr : length (fo_nbr fo) = length (tq_intr t);
  pr_upper : forall i a b, nth_error (fo_owner fo) i = Some a -> nth_error (fo_nbr fo) i = Some b -> a < b < Z.of_nat (length (tq_quads t ++ tq_tris t));
  (* the faces of every cell, seen from outside, are a closed surface around a volume that is the area
     of the element times the height *)
  pr_closed : forall i l, nth_error (tq_quads t ++ tq_tris t) i = Some l -> closed_surface (cell (Z.of_nat i) fo);
  pr_volume : forall i l, nth_error (tq_quads t ++ tq_tris t) i = Some l ->
    (volume (at_index (0, 0, 0)%Q (fo_points fo)) (cell (Z.of_nat i) fo) == z * plane_area (at_index (0, 0)%Q (tq_verts t)) l)%Q;
  (* the patches follow each other from the first boundary face to the last face; the last two are the
     bottom and the top *)
  pr_line : in_line (Z.of_nat (length (tq_intr t))) (map snd (fo_patches fo)) (Z.of_nat (length (fo_faces fo)));
  pr_patches : length (fo_patches fo) = (length (unique (tq_mark t)) + 2)%nat;
  pr_bottom : forall p s n, nth_error (fo_patches fo) (length (unique (tq_mark t))) = Some (p, (s, n)) -> slice s n (fo_faces fo) = map (@rev Z) (tq_quads t ++ tq_tris t);
  pr_top : forall p s n, nth_error (fo_patches fo) (S (length (unique (tq_mark t)))) = Some (p, (s, n)) ->
    slice s n (fo_faces fo) = map (map (fun v => v + Z.of_nat (length (tq_verts t)))) (tq_quads t ++ tq_tris t)
}.

Lemma nth_map2 {A B} (f : A -> B) l i b : nth_error (map f l) i = Some b -> exists a, nth_error l i = Some a /\ b = f a.
Proof. rewrite nth_error_map. destruct (nth_error l i) as [a|]; [|discriminate]. intros H. injection H as <-. exists a. split; reflexivity. Qed.
Lemma in_intr_sides (E : list (Z * Z)) : forall (EL : list (Z * Z)) e, length E = length EL -> In e E -> exists el, In el EL /\ In e (flat_map (intr_sides (fst el)) (combine E EL)).
Proof.
  induction E as [|x E IH]; intros [|el EL] e L H; try discriminate; [destruct H|]. destruct H as [->|H].
  - exists el. split; [left; reflexivity|]. cbn [combine flat_map]. apply in_or_app. left. unfold intr_sides. cbn [fst snd]. rewrite Z.eqb_refl. left. reflexivity.
  - destruct (IH EL e) as (y & Y & I); [cbn in L; lia|exact H|]. exists y. split; [right; exact Y|]. cbn [combine flat_map]. apply in_or_app. right. exact I.
Qed.
Lemma in_bdry_sides (E : list (Z * Z)) : forall (EL : list Z) e, length E = length EL -> In e E ->
  exists el, In el EL /\ In e (flat_map (fun x : (Z * Z) * Z => if Z.eqb (snd x) el then [fst x] else []) (combine E EL)).
Proof.
  induction E as [|x E IH]; intros [|el EL] e L H; try discriminate; [destruct H|]. destruct H as [->|H].
  - exists el. split; [left; reflexivity|]. cbn [combine flat_map fst snd]. rewrite Z.eqb_refl. left. reflexivity.
  - destruct (IH EL e) as (y & Y & I); [cbn in L; lia|exact H|]. exists y. split; [right; exact Y|]. cbn [combine flat_map]. apply in_or_app. right. exact I.
Qed.
Lemma ring_ends {A} (l : list A) a b : In (a, b) (ring_edges l) -> In a l /\ In b l.
Proof.
  intros E. destruct l as [|x r]; [destruct E|]. unfold ring_edges in E.
  assert (G : forall l c, In (a, b) (path_edges c l) -> In a (c :: l) /\ In b l).
  { clear. induction l as [|d l IH]; intros c H; [destruct H|]. cbn in H. destruct H as [H|H]; [injection H as <- <-; cbn; tauto|]. apply IH in H. cbn in *. tauto. }
  apply G in E. destruct E as [E1 E2]. cbn [In] in *. rewrite in_app_iff in *. cbn [In] in *. tauto.
Qed.
Section Build.
Variables (t u : tqm).
Hypothesis PM : plane_mesh t.
Hypothesis AR : arranged t u.
Lemma cells_same : cells_of u = cells_of t.
Proof. unfold cells_of. rewrite (ar_quads _ _ AR), (ar_tris _ _ AR). reflexivity. Qed.
Lemma owner_range l r : In (l, r) (tq_intr_el u) -> 0 <= r < l /\ l < Z.of_nat (length (cells_of t)).
Proof.
  intros I. destruct (ar_upper _ _ AR l r I) as [LE [J|J]]; assert (X := pm_intr_cells _ PM _ _ J); assert (Y := pm_distinct _ PM _ _ J); unfold cells_of in *; lia.
Qed.
Lemma bdry_owner c : In c (tq_bdry_el u) -> 0 <= c < Z.of_nat (length (cells_of t)).
Proof.
  intros I. apply (pm_bdry_cells _ PM). assert (P := Permutation_map snd (ar_pairs _ _ AR)). rewrite map_snd_combine in P by apply (ar_bdry _ _ AR). rewrite map_snd_combine in P by apply (pm_bdry _ PM).
  apply (Permutation_in _ P I).
Qed.
Lemma side_range c e : 0 <= c < Z.of_nat (length (cells_of t)) -> In e (sides_of c u) -> 0 <= fst e < Z.of_nat (length (tq_verts t)) /\ 0 <= snd e < Z.of_nat (length (tq_verts t)).
Proof.
  intros R I. destruct (nth_error (cells_of t) (Z.to_nat c)) as [l|] eqn:N; [|apply nth_error_None in N; lia].
  assert (P := pm_sides _ PM _ _ N). rewrite Z2Nat.id in P by lia. assert (J : In e (ring_edges l)) by (apply (Permutation_in _ (Permutation_sym P)), (Permutation_in _ (ar_sides _ _ AR c)), I).
  destruct e as [a b]. apply ring_ends in J. destruct J as [A B]. apply nth_error_In in N. split; apply (pm_range _ PM l); assumption.
Qed.
Lemma edge_range e : In e (tq_intr u) \/ In e (tq_bdry u) -> 0 <= fst e < Z.of_nat (length (tq_verts t)) /\ 0 <= snd e < Z.of_nat (length (tq_verts t)).
Proof.
  intros [I|I].
  - destruct (in_intr_sides _ _ _ (proj1 (ar_intr _ _ AR)) I) as ([l r] & L & J). apply (side_range l); [apply owner_range in L; lia|]. unfold sides_of. apply in_or_app. left. exact J.
  - destruct (in_bdry_sides _ _ _ (proj1 (ar_bdry _ _ AR)) I) as (c & L & J). apply (side_range c); [apply bdry_owner, L|]. unfold sides_of. apply in_or_app. right. exact J.
Qed.
Lemma mark_length : length (tq_mark u) = length (tq_bdry u).
Proof. rewrite (Permutation_length (ar_mark _ _ AR)), (proj2 (ar_bdry _ _ AR)). symmetry. apply (pm_mark _ PM). Qed.
Lemma insert_comm_perm l l' : Permutation l l' -> unique l = unique l'.
Proof.
  intros P. assert (G : forall a b, StronglySorted Z.lt a -> StronglySorted Z.lt b -> (forall x, In x a <-> In x b) -> a = b).
  { clear. induction a as [|x a IH]; intros b SA SB H.
    - destruct b as [|y b]; [reflexivity|]. destruct (proj2 (H y) (or_introl eq_refl)).
    - destruct b as [|y b]; [destruct (proj1 (H x) (or_introl eq_refl))|]. inversion SA as [|? ? SA' FA]. inversion SB as [|? ? SB' FB]. subst. rewrite Forall_forall in FA, FB.
      assert (x = y). { destruct (proj1 (H x) (or_introl eq_refl)) as [E|E]; [congruence|]. destruct (proj2 (H y) (or_introl eq_refl)) as [F|F]; [congruence|]. specialize (FA y F). specialize (FB x E). lia. }
      subst y. f_equal. apply IH; [exact SA'|exact SB'|]. intros z. split; intros Z.
      + destruct (proj1 (H z) (or_intror Z)) as [E|E]; [subst z; specialize (FA x Z); lia|exact E].
      + destruct (proj2 (H z) (or_intror Z)) as [E|E]; [subst z; specialize (FB x Z); lia|exact E]. }
  apply G; [apply unique_sorted|apply unique_sorted|]. intros x. rewrite !unique_in. split; apply Permutation_in; [exact P|apply Permutation_sym, P].
Qed.
Lemma unique_same : unique (tq_mark u) = unique (tq_mark t).
Proof. apply insert_comm_perm, (ar_mark _ _ AR). Qed.

Definition built (z : Q) : foam := FO (foam_points z u) (foam_faces (Z.of_nat (length (tq_verts u))) u) (foam_owner u) (foam_nbr u) (foam_patches u).
Lemma foam_built z : foam_mesh z u = Ok (built z).
Proof.
  unfold foam_mesh, built. assert (V := pm_verts _ PM). assert (E := pm_edges _ PM). rewrite <- (ar_verts _ _ AR) in V.
  assert (B : tq_bdry u <> []). { intros X. apply E. assert (L := proj2 (ar_bdry _ _ AR)). rewrite X in L. destruct (tq_bdry t); [reflexivity|discriminate]. }
  destruct (tq_verts u) as [|v vs]; [contradiction|]. destruct (tq_bdry u) as [|b bs]; [contradiction|]. reflexivity.
Qed.
Lemma nc_comm : (length (tq_tris u) + length (tq_quads u))%nat = length (cells_of u).
Proof. unfold cells_of. rewrite app_length. lia. Qed.
Lemma sizes_nth : nth_error (map (fun m => how_many m (tq_mark u)) (unique (tq_mark u)) ++ [Z.of_nat (length (cells_of u)); Z.of_nat (length (cells_of u))]) (length (unique (tq_mark u))) = Some (Z.of_nat (length (cells_of u))) /\
  nth_error (map (fun m => how_many m (tq_mark u)) (unique (tq_mark u)) ++ [Z.of_nat (length (cells_of u)); Z.of_nat (length (cells_of u))]) (S (length (unique (tq_mark u)))) = Some (Z.of_nat (length (cells_of u))).
Proof.
  split; rewrite nth_error_app2 by (rewrite map_length; lia); rewrite map_length.
  - rewrite Nat.sub_diag. reflexivity.
  - replace (S (length (unique (tq_mark u))) - length (unique (tq_mark u)))%nat with 1%nat by lia. reflexivity.
Qed.
Lemma built_prisms z : prisms z t (built z).
Proof.
  assert (V := ar_verts _ _ AR). destruct (ar_intr _ _ AR) as [LI LI']. destruct (ar_bdry _ _ AR) as [LB LB']. assert (CS := cells_same).
  assert (NP : length (fo_points (built z)) = (2 * length (tq_verts t))%nat) by (unfold built, foam_points; cbn [fo_points]; rewrite app_length, !map_length, V; lia).
  constructor.
  - unfold built, foam_points. cbn [fo_points]. rewrite V. reflexivity.
  - intros f F. unfold points_in. rewrite NP. unfold built, foam_faces in F. cbn [fo_faces] in F. rewrite V, CS in F. rewrite !in_app_iff in F.
    assert (CL : forall l, In l (cells_of t) -> (length l = 3 \/ length l = 4)%nat).
    { intros l L. unfold cells_of in L. apply in_app_or in L. destruct L as [L|L]; [right; apply (pm_quads _ PM l L)|left; apply (pm_tris _ PM l L)]. }
    destruct F as [F|[F|[F|F]]]; apply in_map_iff in F; destruct F as (x & <- & X).
    + destruct (edge_range x (or_introl X)). split; [right; reflexivity|]. unfold intr_face. cbn [In]. intros v Hv. lia.
    + destruct (edge_range x (or_intror X)). split; [right; reflexivity|]. unfold bdry_face. cbn [In]. intros v Hv. lia.
    + rewrite rev_length. split; [apply CL, X|]. intros v Hv. apply in_rev in Hv. assert (R := pm_range _ PM x v X Hv). lia.
    + rewrite map_length. split; [apply CL, X|]. intros v Hv. apply in_map_iff in Hv. destruct Hv as (w & <- & W). assert (R := pm_range _ PM x w X W). lia.
  - unfold built, foam_faces. cbn [fo_faces]. rewrite !app_length, !map_length, CS. unfold cells_of. rewrite app_length. lia.
  - unfold built, foam_faces, foam_owner. cbn [fo_owner fo_faces]. cbv zeta. split; [rewrite !app_length, !map_length, seq_length, nc_comm; lia|]. rewrite nc_comm, CS. change (tq_quads t ++ tq_tris t) with (cells_of t).
    intros c I. rewrite !in_app_iff in I. destruct I as [I|[I|I]].
    + apply in_map_iff in I. destruct I as ([l r] & <- & I). apply owner_range in I. cbn [snd]. lia.
    + apply bdry_owner, I.
    + assert (J : In c (map Z.of_nat (seq 0 (length (cells_of t))))) by tauto. apply in_map_iff in J. destruct J as (k & <- & K). apply in_seq in K. lia.
  - unfold built, foam_nbr. cbn [fo_nbr]. rewrite map_length. lia.
  - unfold built, foam_owner, foam_nbr. cbn [fo_owner fo_nbr]. cbv zeta. intros i a b A B. apply nth_map2 in B. destruct B as ([l r] & B & ->).
    rewrite nth_error_app1 in A by (rewrite map_length; apply nth_error_Some; congruence). apply nth_map2 in A. destruct A as (x & A & ->). rewrite B in A. injection A as <-. cbn [fst snd].
    apply nth_error_In, owner_range in B. unfold cells_of in *. lia.
  - intros i l H. unfold cell, built. cbn [fo_faces fo_owner fo_nbr]. apply (cell_closed t u i l PM AR H).
  - intros i l H. unfold cell, volume, built. cbn [fo_faces fo_owner fo_nbr fo_points]. rewrite V.
    set (n := Z.of_nat (length (tq_verts t))). set (P := at_index (0, 0, 0)%Q (foam_points z u)). set (p := at_index (0, 0)%Q (tq_verts t)).
    assert (LOW : forall v, 0 <= v < n -> P v = (p v, 0%Q)).
    { intros v R. unfold P, p, at_index, foam_points. rewrite V. rewrite app_nth1 by (rewrite map_length; unfold n in R; lia).
      rewrite (map_nth (fun p => (p, 0%Q))). reflexivity. }
    assert (HIGH : forall v, 0 <= v < n -> P (v + n) = (p v, z)).
    { intros v R. unfold P, p, at_index, foam_points. rewrite V. rewrite app_nth2 by (rewrite map_length; unfold n in *; lia). rewrite map_length.
      replace (Z.to_nat (v + n) - length (tq_verts t))%nat with (Z.to_nat v) by (unfold n in *; lia).
      rewrite (nth_indep _ _ ((0, 0), z)%Q) by (rewrite map_length; unfold n in R; lia). rewrite (map_nth (fun p => (p, z))). reflexivity. }
    assert (G : forall v, In v l -> 0 <= v < n) by (intros v Hv; apply (pm_range _ PM l v); [apply nth_error_In in H; exact H|exact Hv]).
    assert (X := cell_sum_ring (face_volume P) n (fun e => (0 <= fst e < n) /\ (0 <= snd e < n))).
    assert (Y : (fsum (face_volume P) (outward (Z.of_nat i) (foam_faces n u) (foam_owner u) (foam_nbr u)) == z * plane_area p l)%Q); [|exact Y].
    rewrite X with (t := t) (l := l); [|intros [a b] [A B]; rewrite (side_volume_rev p P n z _ LOW HIGH a b A B), (side_volume p P n z _ LOW HIGH a b A B); reflexivity|exact PM|exact AR|exact H|].
    + apply (prism_volume p P n z _ LOW HIGH l G).
    + intros [a b] E. apply ring_ends in E. split; apply G; apply E.
  - assert (X := patches_in_line (map (fun m => how_many m (tq_mark u)) (unique (tq_mark u)) ++ [Z.of_nat (length (cells_of u)); Z.of_nat (length (cells_of u))]) 1 (Z.of_nat (length (tq_intr u)))).
    unfold built, foam_patches. cbn [fo_patches fo_faces]. cbv zeta. rewrite nc_comm. rewrite sumZ_app, counts_total, mark_length in X. cbn [sumZ] in X.
    rewrite LI' in *. replace (Z.of_nat (length (foam_faces (Z.of_nat (length (tq_verts u))) u))) with (Z.of_nat (length (tq_intr t)) + (Z.of_nat (length (tq_bdry u)) + (Z.of_nat (length (cells_of u)) + (Z.of_nat (length (cells_of u)) + 0)))).
    + apply X. apply Forall_forall. intros y Y. apply in_app_or in Y. destruct Y as [Y|Y]; [apply in_map_iff in Y; destruct Y as (m & <- & _); unfold how_many; lia|cbn in Y; lia].
    + unfold foam_faces. rewrite !app_length, !map_length. lia.
  - unfold built, foam_patches. cbn [fo_patches]. cbv zeta. rewrite <- (map_length fst), patches_names, map_length, seq_length, app_length, map_length, unique_same. reflexivity.
  - intros p s n. unfold built, foam_patches. cbn [fo_patches fo_faces]. cbv zeta. rewrite nc_comm, <- unique_same, patches_nth, (proj1 sizes_nth). intros E. injection E as _ <- <-.
    rewrite firstn_app, map_length, Nat.sub_diag. cbn [firstn]. rewrite app_nil_r, firstn_all2 by (rewrite map_length; lia). rewrite counts_total, mark_length.
    assert (S := slice_app (map (intr_face (Z.of_nat (length (tq_verts u)))) (tq_intr u) ++ map (bdry_face (Z.of_nat (length (tq_verts u)))) (tq_bdry u)) (map (@rev Z) (cells_of u)) (map (map (fun v => v + Z.of_nat (length (tq_verts u)))) (cells_of u))).
    rewrite app_length, !map_length, Nat2Z.inj_add, <- app_assoc in S. unfold foam_faces. rewrite S, CS. reflexivity.
  - intros p s n. unfold built, foam_patches. cbn [fo_patches fo_faces]. cbv zeta. rewrite nc_comm, <- unique_same, patches_nth, (proj2 sizes_nth). remember (S (length (unique (tq_mark u)))) as K eqn:EK. intros E. injection E as _ <- <-. subst K.
    rewrite firstn_app, map_length. rewrite firstn_all2 by (rewrite map_length; lia). replace (S (length (unique (tq_mark u))) - length (unique (tq_mark u)))%nat with 1%nat by lia. cbn [firstn]. rewrite sumZ_app, counts_total, mark_length. cbn [sumZ].
    assert (S := slice_app (map (intr_face (Z.of_nat (length (tq_verts u)))) (tq_intr u) ++ map (bdry_face (Z.of_nat (length (tq_verts u)))) (tq_bdry u) ++ map (@rev Z) (cells_of u)) (map (map (fun v => v + Z.of_nat (length (tq_verts u)))) (cells_of u)) []).
    rewrite app_nil_r in S. rewrite !app_length, !map_length, !Nat2Z.inj_add, <- !app_assoc in S. unfold foam_faces. rewrite Z.add_0_r. rewrite S, CS, V. reflexivity.
Qed.
End Build.

(* C59: for every order numpy.argsort may choose, the lists of a plane mesh are converted without an error
   and the result is a mesh of prisms *)
Theorem C59_prisms argsort z t : sorting argsort -> plane_mesh t -> exists fo, obind (arrange argsort t) (foam_mesh z) = Ok fo /\ prisms z t fo.
Proof.
  intros S PM. destruct (arrange_ok argsort S t PM) as (u & A & AR). rewrite A. cbn [obind]. rewrite (foam_built t u PM AR z). eexists. split; [reflexivity|]. apply built_prisms; assumption.
Qed.

(* C59, from the mesh to OpenFOAM: a conforming mesh whose elements contain their centroids is written by
   TQMesh and converted by the script to a mesh of prisms, one for each element *)
Theorem C59_mesh argsort z old oldf twin msize id m : sorting argsort -> conforming m -> (forall f, In f (facets m) -> centred (mh_pos m) f) ->
  NoDup (mh_verts m) -> (forall f v, In f (facets m) -> In v (corners (fa_sh f)) -> In v (mh_verts m)) -> mh_bdry m <> [] ->
  let m' := setup_facet_connectivity m in
  exists t fo, convert argsort z (txt_file (vertex_indices m' old) (element_indices m' oldf) twin msize id m') = Ok fo /\ plane_mesh t /\ prisms z t fo /\
    tq_verts t = map (fun v => (shown (vx (mh_pos m v)), shown (vy (mh_pos m v)))) (mh_verts m) /\
    tq_quads t ++ tq_tris t = map (fun f => map (vertex_indices m' old) (corners (fa_sh f))) (facets m).
Proof.
  intros S C N V VC NE m'. assert (C' := setup_conforming m C). assert (L := setup_linked m C N). fold m' in C', L.
  assert (NE' : mh_bdry m' <> []). { unfold m'. cbn. intros X. apply map_eq_nil in X. exact (NE X). }
  assert (PM := mesh_plane m' C' L old oldf V VC NE'). exists (arrays_of (vertex_indices m' old) (element_indices m' oldf) m').
  destruct (C59_prisms argsort z _ S PM) as (fo & F & P). exists fo. split; [rewrite (converts _ _ _ _ _ _ _ _ (mesh_shaped m' C')); exact F|]. split; [exact PM|]. split; [exact P|]. split; [reflexivity|].
  unfold arrays_of, facets. cbn. rewrite map_app. reflexivity.
Qed.

(* ---- patches and markers ---- *)
Definition marked (m : Z) (t : tqm) : list (Z * Z) := map fst (filter (fun x => Z.eqb m (snd x)) (combine (tq_bdry t) (tq_mark t))).
(* C59: each patch but the last two holds the faces of one marker, when the sort by elements leaves the list of
   markers as it is *)
Theorem C59_markers_partial argsort z t fo : sorting argsort -> plane_mesh t -> gather (tq_mark t) (argsort (tq_bdry_el t)) = Ok (tq_mark t) ->
  obind (arrange argsort t) (foam_mesh z) = Ok fo ->
  forall j m p s n, nth_error (unique (tq_mark t)) j = Some m -> nth_error (fo_patches fo) j = Some (p, (s, n)) ->
    Permutation (slice s n (fo_faces fo)) (map (bdry_face (Z.of_nat (length (tq_verts t)))) (marked m t)).
Proof.
  intros S PM ST R j m p s n J P. destruct (arrange_ok argsort S t PM) as (u & A & AR). rewrite A in R. cbn [obind] in R. rewrite (foam_built t u PM AR z) in R. injection R as <-.
  destruct (arrange_marks argsort S t u PM ST A) as [PE LE]. cbn [fo_patches fo_faces built] in *. unfold foam_patches in P. cbv zeta in P. rewrite <- (unique_same t u AR) in J.
  rewrite patches_nth in P. assert (JL : (j < length (unique (tq_mark u)))%nat) by (apply nth_error_Some; congruence).
  rewrite nth_error_app1 in P by (rewrite map_length; exact JL). rewrite nth_error_map, J in P. cbn [option_map] in P.
  rewrite firstn_app, map_length in P. replace (j - length (unique (tq_mark u)))%nat with 0%nat in P by lia. rewrite firstn_O, app_nil_r, firstn_map in P.
  remember (sumZ (map (fun m0 => how_many m0 (tq_mark u)) (firstn j (unique (tq_mark u))))) as o eqn:EO. injection P as _ <- <-. rewrite counts_before in EO.
  set (X := combine (tq_bdry u) (tq_mark u)). assert (KX : map snd X = tq_mark u) by (apply map_snd_combine, LE).
  destruct (nth_error_split _ _ J) as (u1 & u2 & EU & L1). assert (F1 : firstn j (unique (tq_mark u)) = u1) by (rewrite EU, <- L1, firstn_app, firstn_all, Nat.sub_diag; cbn [firstn]; apply app_nil_r).
  rewrite F1 in EO. rewrite <- KX, <- before_combine in EO.
  assert (B := block (@snd (Z * Z) Z) u1 X m u2). rewrite <- EU in B. rewrite KX in B. specialize (B (unique_sorted _)). assert (SS : StronglySorted Z.le (tq_mark u)) by (apply Sorted_StronglySorted; [intros a b c; lia|apply (ar_marks _ _ AR)]).
  specialize (B SS). assert (IX : forall x, In x X -> In (snd x) (unique (tq_mark u))) by (intros x I; apply unique_in; rewrite <- KX; apply in_map, I). specialize (B IX).
  unfold slice. rewrite how_many_key, <- KX, <- count_combine, EO, Nat2Z.id. replace (Z.to_nat (Z.of_nat (length (tq_intr u)) + Z.of_nat (before snd X u1))) with (length (tq_intr u) + before snd X u1)%nat by lia.
  unfold foam_faces. rewrite skipn_app, skipn_all2 by (rewrite map_length; lia). rewrite map_length. replace (length (tq_intr u) + before snd X u1 - length (tq_intr u))%nat with (before snd X u1) by lia. cbn [app].
  assert (EB : tq_bdry u = map fst X) by (symmetry; apply map_fst_combine, LE).
  assert (BL : (before snd X u1 + count_key snd X m <= length X)%nat).
  { rewrite <- (count_total snd (unique (tq_mark u)) X (strictly_nodup _ (unique_sorted _)) IX). rewrite EU. clear. induction u1 as [|a u1 IH]; cbn [app before]; lia. }
  assert (LX : length X = length (tq_bdry u)) by (rewrite EB, map_length; reflexivity).
  rewrite skipn_app, firstn_app. rewrite skipn_length, map_length.
  replace (count_key snd X m - (length (tq_bdry u) - before snd X u1))%nat with 0%nat by lia. rewrite firstn_O, app_nil_r.
  rewrite EB at 1. rewrite map_map, skipn_map, firstn_map, <- B. unfold marked. rewrite map_map, (ar_verts _ _ AR). apply Permutation_map. unfold with_key. apply filter_perm, PE.
Qed.
(* with one marker the hypothesis holds *)
Theorem C59_one_marker argsort z t m : sorting argsort -> plane_mesh t -> (forall x, In x (tq_mark t) -> x = m) -> exists fo p n,
  obind (arrange argsort t) (foam_mesh z) = Ok fo /\ nth_error (fo_patches fo) 0 = Some (p, (Z.of_nat (length (tq_intr t)), n)) /\
  Permutation (slice (Z.of_nat (length (tq_intr t))) n (fo_faces fo)) (map (bdry_face (Z.of_nat (length (tq_verts t)))) (tq_bdry t)).
Proof.
  intros S PM H. destruct (C59_prisms argsort z t S PM) as (fo & F & PR).
  assert (R : forall l k, (forall x, In x l -> x = m) -> length l = k -> l = repeat m k).
  { clear. induction l as [|a l IH]; intros k H L; subst k; [reflexivity|]. cbn. rewrite (H a (or_introl eq_refl)). f_equal. apply IH; [intros x X; apply H; right; exact X|reflexivity]. }
  assert (ST : gather (tq_mark t) (argsort (tq_bdry_el t)) = Ok (tq_mark t)).
  { assert (P : Permutation (argsort (tq_bdry_el t)) (seq 0 (length (tq_mark t)))) by (rewrite <- (pm_mark _ PM), (pm_bdry _ PM); apply S).
    destruct (gather_perm (tq_mark t) _ P) as (l' & G & Q & L). rewrite G. f_equal. rewrite (R (tq_mark t) _ H eq_refl). apply R; [|exact L]. intros x X. apply H, (Permutation_in _ Q X). }
  assert (U : unique (tq_mark t) = [m]).
  { assert (SU := unique_sorted (tq_mark t)). assert (IU : forall x, In x (unique (tq_mark t)) -> x = m) by (intros x X; apply H, unique_in, X).
    assert (NU : unique (tq_mark t) <> []). { intros X. assert (M := pm_mark _ PM). assert (E := pm_edges _ PM). destruct (tq_mark t) as [|x r]; [destruct (tq_bdry t); [contradiction|discriminate]|]. assert (I : In x (unique (x :: r))) by (apply unique_in; left; reflexivity). rewrite X in I. destruct I. }
    destruct (unique (tq_mark t)) as [|a [|b r]]; [contradiction|rewrite (IU a (or_introl eq_refl)); reflexivity|]. inversion SU as [|? ? _ FA]. inversion FA as [|? ? AB _]. subst. rewrite (IU a (or_introl eq_refl)), (IU b (or_intror (or_introl eq_refl))) in AB. lia. }
  assert (LN := pr_line _ _ _ PR). assert (LP := pr_patches _ _ _ PR). rewrite U in LP. cbn in LP. destruct (fo_patches fo) as [|[p [s n]] ps] eqn:EP; [discriminate|]. cbn [map snd in_line] in LN. destruct LN as (LN & _).
  exists fo, p, n. split; [exact F|]. rewrite EP. rewrite <- LN. split; [reflexivity|].
  assert (X := C59_markers_partial argsort z t fo S PM ST F 0 m p s n). rewrite U, EP in X. specialize (X eq_refl eq_refl).
  assert (M : marked m t = tq_bdry t).
  { unfold marked. rewrite filter_whole; [apply map_fst_combine, (pm_mark _ PM)|]. intros [e x] I. apply in_combine_r in I. rewrite (H x I). apply Z.eqb_refl. }
  rewrite M in X. exact X.
Qed.

(* the sort of small arrays: insertion *)
Fixpoint put (x : Z * nat) (l : list (Z * nat)) : list (Z * nat) := match l with [] => [x] | y :: r => if Z.leb (fst x) (fst y) then x :: l else y :: put x r end.
Definition insertion (keys : list Z) : list nat := map snd (fold_right put [] (combine keys (seq 0 (length keys)))).
Lemma put_perm x l : Permutation (put x l) (x :: l).
Proof. induction l as [|y l IH]; cbn; [apply Permutation_refl|]. destruct (Z.leb (fst x) (fst y)); [apply Permutation_refl|]. transitivity (y :: x :: l); [constructor; exact IH|apply perm_swap]. Qed.
Lemma put_sorted x l : StronglySorted (fun a b => fst a <= fst b) l -> StronglySorted (fun a b => fst a <= fst b) (put x l).
Proof.
  induction 1 as [|y l S IH F]; cbn; [repeat constructor|]. destruct (Z.leb_spec (fst x) (fst y)).
  - constructor; [constructor; assumption|]. constructor; [exact H|]. rewrite Forall_forall in *. intros z Z. specialize (F z Z). lia.
  - constructor; [exact IH|]. apply Forall_forall. intros z Z. apply (Permutation_in _ (put_perm x l)) in Z. rewrite Forall_forall in F. destruct Z as [<-|Z]; [lia|apply F, Z].
Qed.
Lemma insertion_sorts : sorting insertion.
Proof.
  intros keys. unfold insertion. set (L := combine keys (seq 0 (length keys))). assert (P : Permutation (fold_right put [] L) L).
  { clear. induction L as [|x l IH]; cbn; [constructor|]. transitivity (x :: fold_right put [] l); [apply put_perm|constructor; exact IH]. }
  split.
  - transitivity (map snd L); [apply Permutation_map, P|]. unfold L. rewrite map_snd_combine by (rewrite seq_length; reflexivity). apply Permutation_refl.
  - assert (E : map (fun i => nth i keys 0) (map snd (fold_right put [] L)) = map fst (fold_right put [] L)).
    { rewrite map_map. apply map_ext_in. intros [k i] I. apply (Permutation_in _ P) in I. cbn [fst snd].
      assert (G : forall a l i, In (k, i) (combine l (seq a (length l))) -> nth (i - a) l 0 = k /\ (a <= i)%nat).
      { clear. intros a l. revert a. induction l as [|x l IH]; intros a i H; [destruct H|]. cbn in H. destruct H as [H|H]; [injection H as -> ->; rewrite Nat.sub_diag; split; [reflexivity|lia]|].
        apply IH in H. destruct H as [H1 H2]. replace (i - a)%nat with (S (i - S a)) by lia. split; [exact H1|lia]. }
      destruct (G 0%nat keys i I) as [X _]. rewrite Nat.sub_0_r in X. exact X. }
    rewrite E. apply StronglySorted_Sorted. assert (S : StronglySorted (fun a b => fst a <= fst b) (fold_right put [] L)).
    { clear. induction L as [|x l IH]; cbn; [constructor|apply put_sorted, IH]. }
    clear - S. induction S as [|x l S IH F]; cbn; constructor; [exact IH|]. rewrite Forall_forall in *. intros y Y. apply in_map_iff in Y. destruct Y as (z & <- & Z). apply F, Z.
Qed.

(* a conforming mesh that is ready to be written *)
Definition ready (m : mesh) : Prop := conforming m /\ (forall f, In f (facets m) -> centred (mh_pos m) f) /\ NoDup (mh_verts m) /\
  (forall f v, In f (facets m) -> In v (corners (fa_sh f)) -> In v (mh_verts m)) /\ mh_bdry m <> [].
Definition foam_of (z : Q) (m : mesh) : outcome foam :=
  let m' := setup_facet_connectivity m in convert insertion z (txt_file (vertex_indices m' (fun _ => -1)) (element_indices m' (fun _ => -1)) (fun _ => (0, 0)) (fun _ => 1%Q) 0 m').
(* four squares in a row, numbered 3 0 1 2, every boundary edge with a colour of its own *)
Definition row_of_four : mesh :=
  MH (ptl [V2 0 0; V2 1 0; V2 2 0; V2 3 0; V2 4 0; V2 0 1; V2 1 1; V2 2 1; V2 3 1; V2 4 1]) (fun _ => 0%N) [0;1;2;3;4;5;6;7;8;9]%nat
     [FA 10 (Quad4 1 2 7 6) 1 true; FA 11 (Quad4 2 3 8 7) 1 true; FA 12 (Quad4 3 4 9 8) 1 true; FA 13 (Quad4 0 1 6 5) 1 true] []
     [fresh_edge 14 1 6 (-1); fresh_edge 15 2 7 (-1); fresh_edge 16 3 8 (-1)]
     [fresh_edge 17 0 1 1; fresh_edge 18 1 2 2; fresh_edge 19 2 3 3; fresh_edge 20 3 4 4; fresh_edge 21 4 9 5; fresh_edge 22 9 8 6; fresh_edge 23 8 7 7; fresh_edge 24 7 6 8; fresh_edge 25 6 5 9; fresh_edge 26 5 0 10]
     (fun _ _ => None) 27 4 1 100.
Lemma house_ready : ready house.
Proof.
  destruct C30_house_conforming as (A & _ & B). split; [exact A|]. split; [exact B|]. split; [apply (nodupb_sound Nat.eqb Nat.eqb_refl); reflexivity|]. split; [|discriminate].
  intros f v F V. cbn in F. destruct F as [<-|[<-|[]]]; cbn in V; cbn; tauto.
Qed.
Lemma row_ready : ready row_of_four.
Proof.
  split; [apply conformingb_sound; vm_compute; reflexivity|]. split.
  { intros f Hf a b Hs. cbn in Hf. destruct Hf as [Hf|[Hf|[Hf|[Hf|[]]]]]; subst f; cbn in Hs;
    repeat (destruct Hs as [Hs|Hs]; [injection Hs as E1 E2; subst a b; vm_compute; split; reflexivity|]); destruct Hs. }
  split; [apply (nodupb_sound Nat.eqb Nat.eqb_refl); reflexivity|]. split; [|discriminate].
  intros f v F V. cbn in F. destruct F as [<-|[<-|[<-|[<-|[]]]]]; cbn in V; cbn; tauto.
Qed.
(* C59, wrong patches: the script sorts the edges by their elements but not the markers, and then sorts the edges
   by these markers.  The left wall of the house, colour 4, is filed under the marker 3 of the roof, and the
   patch of colour 4 holds a piece of the roof. *)
Theorem C59_markers_refuted : exists m, ready m /\
  match foam_of 1 m with
  | Ok fo => match fo_patches fo with
             | _ :: _ :: (p3, (s3, n3)) :: (p4, (s4, n4)) :: _ =>
               p4 = chars "boundary_4" /\ slice s4 n4 (fo_faces fo) = [bdry_face 5 (4, 3)] /\ In (bdry_face 5 (3, 0)) (slice s3 n3 (fo_faces fo)) /\
               map (fun e => (ed_1 e, ed_2 e)) (filter (fun e => Z.eqb (ed_col e) 4) (mh_bdry m)) = [(3, 0)]%nat
             | _ => False
             end
  | _ => False
  end.
Proof. exists house. split; [apply house_ready|]. vm_compute. intuition. Qed.
(* C59, order of the faces: OpenFOAM expects the interior faces in the order of their owners; the script sorts
   them by the other cell *)
Theorem C59_order_refuted : exists m, ready m /\ match foam_of 1 m with Ok fo => ~ upper_order fo | _ => False end.
Proof.
  exists row_of_four. split; [apply row_ready|]. destruct (foam_of 1 row_of_four) as [fo| |] eqn:E.
  - intros U. specialize (U 1%nat 2%nat 1 2 0 3 ltac:(lia)).
    assert (X : match foam_of 1 row_of_four with Ok fo => nth_error (fo_owner fo) 1 = Some 1 /\ nth_error (fo_nbr fo) 1 = Some 2 /\ nth_error (fo_owner fo) 2 = Some 0 /\ nth_error (fo_nbr fo) 2 = Some 3 | _ => False end) by (vm_compute; repeat split).
    rewrite E in X. destruct X as (A & B & C & D). specialize (U A B C D). lia.
  - assert (X : match foam_of 1 row_of_four with Ok _ => True | _ => False end) by (vm_compute; exact I). rewrite E in X. exact X.
  - assert (X : match foam_of 1 row_of_four with Ok _ => True | _ => False end) by (vm_compute; exact I). rewrite E in X. exact X.
Qed.
(* C59, order of the patches: they are written in the order of their names, and boundary_10 comes before
   boundary_2: the start faces do not increase *)
Theorem C59_names_refuted : exists m, ready m /\ match foam_of 1 m with
  | Ok fo => map fst (firstn 3 (written_patches fo)) = map chars ["boundary_1"; "boundary_10"; "boundary_11"]%string /\
             ~ in_line 3 (map snd (written_patches fo)) (Z.of_nat (length (fo_faces fo)))
  | _ => False end.
Proof. exists row_of_four. split; [apply row_ready|]. vm_compute. split; [reflexivity|]. intros (_ & _ & A & _). discriminate. Qed.
Theorem C59_names_partial argsort z t fo : sorting argsort -> plane_mesh t -> obind (arrange argsort t) (foam_mesh z) = Ok fo -> (length (unique (tq_mark t)) <= 7)%nat ->
  written_patches fo = fo_patches fo.
Proof.
  intros S PM R N. destruct (arrange_ok argsort S t PM) as (u & A & AR). rewrite A in R. cbn [obind] in R. rewrite (foam_built t u PM AR z) in R. injection R as <-.
  rewrite <- (unique_same t u AR) in N. unfold written_patches, built, foam_patches. cbn [fo_patches]. cbv zeta.
  assert (L : (length (map (fun m => how_many m (tq_mark u)) (unique (tq_mark u)) ++ [Z.of_nat (length (tq_tris u) + length (tq_quads u)); Z.of_nat (length (tq_tris u) + length (tq_quads u))]) <= 9)%nat) by (rewrite app_length, map_length; cbn; lia).
  generalize (Z.of_nat (length (tq_intr u))). revert L. generalize (map (fun m => how_many m (tq_mark u)) (unique (tq_mark u)) ++ [Z.of_nat (length (tq_tris u) + length (tq_quads u)); Z.of_nat (length (tq_tris u) + length (tq_quads u))]).
  clear. intros l L o. do 10 (destruct l as [|? l]; [reflexivity|]). cbn in L. lia.
Qed.
(* C59, height: a negative height is accepted and turns every cell inside out *)
Theorem C59_height_refuted : exists m, ready m /\ match foam_of (-1) m with Ok fo => (volume (at_index (0, 0, 0)%Q (fo_points fo)) (cell 0 fo) == - 4)%Q | _ => False end.
Proof. exists house. split; [apply house_ready|]. vm_compute. reflexivity. Qed.
(* C59, points: six digits of a coordinate are written; this is half of the sixth digit off at most *)
Theorem C59_points_partial e q : (Qabs (shown_g e q - q) <= (1 # 2) * 10 ^ (e - 5))%Q.
Proof. apply shown_g_close. Qed.
(* ... and different points, each of them exact in the file of the mesh, become the same *)
Theorem C59_points_refuted : exists x y, leading 3 x /\ leading 3 y /\ (x < y)%Q /\ (shown x == x)%Q /\ (shown y == y)%Q /\ (shown_g 3 x == shown_g 3 y)%Q.
Proof. exists (1000001 # 1000)%Q, (1000002 # 1000)%Q. unfold leading. repeat split; vm_compute; try reflexivity; discriminate. Qed.
(* C59, several meshes: only the first one is converted *)
Theorem C59_first_mesh_refuted : exists m1 m2, let txt k m := let m' := setup_facet_connectivity m in
    txt_file (vertex_indices m' (fun _ => -1)) (element_indices m' (fun _ => -1)) (fun _ => (0, 0)) (fun _ => 1%Q) k m' in
  match convert insertion 1 (txt 0 m1 ++ txt 1 m2), convert insertion 1 (txt 0 m1) with
  | Ok a, Ok b => fo_faces a = fo_faces b /\ length (fo_points a) = length (fo_points b) /\ facets m2 <> []
  | _, _ => False
  end.
Proof. exists house, row_of_four. vm_compute. split; [reflexivity|]. split; [reflexivity|]. discriminate. Qed.

(* the second of two meshes *)
Example C59_among_case : let txt k m := let m' := setup_facet_connectivity m in
    txt_file (vertex_indices m' (fun _ => -1)) (element_indices m' (fun _ => -1)) (fun _ => (0, 0)) (fun _ => 1%Q) k m' in
  match read_arrays 1 (clear_comments (lines (txt 0 row_of_four ++ txt 1 house))), read_arrays 0 (clear_comments (lines (txt 0 row_of_four ++ txt 1 house))) with
  | Ok a, Ok b => length (tq_quads a ++ tq_tris a) = length (facets house) /\ length (tq_quads b ++ tq_tris b) = length (facets row_of_four) /\ length (facets house) <> length (facets row_of_four)
  | _, _ => False
  end.
Proof. vm_compute. split; [reflexivity|]. split; [reflexivity|]. discriminate. Qed.

(* the hypotheses hold for the house; the outcome *)
Example C59_case : sorting insertion /\ ready house /\ match foam_of 2 house with
  | Ok fo => length (fo_points fo) = 10%nat /\ fo_faces fo = [[2; 3; 8; 7]; [0; 1; 6; 5]; [1; 2; 7; 6]; [3; 0; 5; 8]; [2; 4; 9; 7]; [4; 3; 8; 9]; [3; 2; 1; 0]; [4; 2; 3]; [5; 6; 7; 8]; [8; 7; 9]] /\
             fo_owner fo = [0; 0; 0; 0; 1; 1; 0; 1; 0; 1] /\ fo_nbr fo = [1] /\ map snd (fo_patches fo) = [(1, 1); (2, 1); (3, 2); (5, 1); (6, 2); (8, 2)] /\
             closed_surface (cell 1 fo) /\ (volume (at_index (0, 0, 0)%Q (fo_points fo)) (cell 1 fo) == 4)%Q
  | _ => False end.
Proof.
  split; [apply insertion_sorts|]. split; [apply house_ready|].
  assert (X : match foam_of 2 house with Ok fo => length (fo_points fo) = 10%nat /\ fo_faces fo = [[2; 3; 8; 7]; [0; 1; 6; 5]; [1; 2; 7; 6]; [3; 0; 5; 8]; [2; 4; 9; 7]; [4; 3; 8; 9]; [3; 2; 1; 0]; [4; 2; 3]; [5; 6; 7; 8]; [8; 7; 9]] /\
             fo_owner fo = [0; 0; 0; 0; 1; 1; 0; 1; 0; 1] /\ fo_nbr fo = [1] /\ map snd (fo_patches fo) = [(1, 1); (2, 1); (3, 2); (5, 1); (6, 2); (8, 2)] /\
             (volume (at_index (0, 0, 0)%Q (fo_points fo)) (cell 1 fo) == 4)%Q | _ => False end) by (vm_compute; repeat split).
  destruct house_ready as (A & B & C & D & E). destruct (C59_mesh insertion 2 (fun _ => -1) (fun _ => -1) (fun _ => (0, 0)) (fun _ => 1%Q) 0 house insertion_sorts A B C D E) as (t & fo & F & PM & PR & TV & TC).
  unfold foam_of in *. cbv zeta in *. rewrite F in *. destruct X as (X1 & X2 & X3 & X4 & X5 & X6). do 5 (split; [assumption|]). split; [|exact X6].
  eapply (pr_closed _ _ _ PR 1%nat). rewrite TC. reflexivity.
Qed.
(* the hypotheses of C59_markers_partial and C59_one_marker: other colours *)
Definition painted (cs : list Z) (m : mesh) : mesh :=
  MH (mh_pos m) (mh_prop m) (mh_verts m) (mh_quads m) (mh_tris m) (mh_intr m)
     (map (fun x => ED (ed_id (fst x)) (ed_1 (fst x)) (ed_2 (fst x)) (snd x) (ed_prop (fst x)) (ed_l (fst x)) (ed_r (fst x)) (ed_twin (fst x))) (combine (mh_bdry m) cs))
     (mh_nbr m) (mh_next m) (mh_area m) (mh_col m) (mh_scale m).
Lemma painted_ready cs : conformingb (painted cs house) = true -> mh_bdry (painted cs house) <> [] -> ready (painted cs house).
Proof. intros C N. destruct house_ready as (_ & A & B & D & _). split; [apply conformingb_sound, C|]. split; [exact A|]. split; [exact B|]. split; [exact D|exact N]. Qed.
Example C59_markers_case : exists t, plane_mesh t /\ gather (tq_mark t) (insertion (tq_bdry_el t)) = Ok (tq_mark t) /\ tq_mark t = [1; 2; 3; 3; 3] /\ tq_bdry_el t = [0; 0; 1; 1; 0].
Proof.
  assert (R : ready (painted [1; 2; 3; 3; 3] house)) by (apply painted_ready; [vm_compute; reflexivity|discriminate]). destruct R as (A & B & C & D & E).
  set (m' := setup_facet_connectivity (painted [1; 2; 3; 3; 3] house)). assert (N : mh_bdry m' <> []) by discriminate.
  exists (arrays_of (vertex_indices m' (fun _ => -1)) (element_indices m' (fun _ => -1)) m'). split; [apply (mesh_plane m' (setup_conforming _ A) (setup_linked _ A B) _ _ C D N)|]. vm_compute. repeat split.
Qed.
Example C59_one_marker_case : exists t, plane_mesh t /\ (forall x, In x (tq_mark t) -> x = 4) /\ length (tq_mark t) = 5%nat.
Proof.
  assert (R : ready (painted [4; 4; 4; 4; 4] house)) by (apply painted_ready; [vm_compute; reflexivity|discriminate]). destruct R as (A & B & C & D & E).
  set (m' := setup_facet_connectivity (painted [4; 4; 4; 4; 4] house)). assert (N : mh_bdry m' <> []) by discriminate.
  exists (arrays_of (vertex_indices m' (fun _ => -1)) (element_indices m' (fun _ => -1)) m'). split; [apply (mesh_plane m' (setup_conforming _ A) (setup_linked _ A B) _ _ C D N)|].
  split; [|vm_compute; reflexivity]. intros x X. vm_compute in X. intuition.
Qed.

Print Assumptions C59_reads.
Print Assumptions C59_reads_among.
Print Assumptions C59_prisms.
Print Assumptions C59_mesh.
Print Assumptions C59_markers_partial.
Print Assumptions C59_one_marker.
Print Assumptions C59_markers_refuted.
Print Assumptions C59_order_refuted.
Print Assumptions C59_names_refuted.
Print Assumptions C59_names_partial.
Print Assumptions C59_height_refuted.
Print Assumptions C59_points_partial.
Print Assumptions C59_points_refuted.
Print Assumptions C59_first_mesh_refuted.
