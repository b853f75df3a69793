(* Exact cover: finished meshes and the operations on them. *)
From Coq Require Import Lqa Lia Permutation.
From Verif Require Import Base Chain GeomModel GeomSpec UtilModel AdvanceModel FacetModel MeshModel MeshSpec MeshProofs QRefineSpec CleanSpec T2QSpec MergerSpec
  SmoothSpec SmoothProofs WindSpec WindProofs.
Open Scope Q_scope.

(* the boundary edges of a mesh as directed segments *)
Definition boundary_segments (m : mesh) : list (vec2 * vec2) :=
  map (fun e => (mh_pos m (ed_1 e), mh_pos m (ed_2 e))) (mh_bdry m).
Definition mesh_region (m : mesh) (p : vec2) : Q := winding p (boundary_segments m).
Definition simple_elements (m : mesh) : Prop := forall f, In f (facets m) -> simple_shape (mh_pos m) (fa_sh f).
Definition shapes (m : mesh) : list shape := map fa_sh (facets m).

Lemma shapes_sides m : flat_map shape_sides (shapes m) = all_sides m.
Proof. unfold shapes, all_sides, sides. rewrite flat_map_concat_map, map_map, <- flat_map_concat_map. reflexivity. Qed.
Lemma region_ends p m : mesh_region m p == esum (at_pos (mh_pos m) p) (map ends_of (mh_bdry m)).
Proof.
  unfold mesh_region, winding, boundary_segments. induction (mh_bdry m) as [|e l IH]; [reflexivity|].
  cbn [map esum ends_of]. rewrite IH. reflexivity.
Qed.
Lemma sides_region p m : conforming m -> esum (at_pos (mh_pos m) p) (all_sides m) == mesh_region m p.
Proof.
  intros C. rewrite region_ends, (esum_perm _ _ _ (sides_perm m C)), esum_app.
  assert (Z : esum (at_pos (mh_pos m) p) (flat_map both (mh_intr m)) == 0).
  { induction (mh_intr m) as [|e l IH]; [reflexivity|]. cbn [flat_map both app esum].
    rewrite IH, (at_pos_antisym (mh_pos m) p (ed_1 e) (ed_2 e)). ring. }
  rewrite Z. ring.
Qed.
Lemma mesh_tiles m : conforming m -> simple_elements m -> tiles (mh_pos m) (shapes m) (mesh_region m).
Proof.
  intros C S p. destruct (all_owned (mh_pos m) p (shapes m)) as [bs [O E]].
  - intros s Hs. apply in_map_iff in Hs. destruct Hs as [f [<- Hf]]. exact (S f Hf).
  - exists bs. split; [exact O|]. rewrite E, shapes_sides. apply sides_region. exact C.
Qed.
Lemma tiles_eq pos ss r r' : (forall p, r p == r' p) -> tiles pos ss r -> tiles pos ss r'.
Proof. intros H T p. destruct (T p) as [bs [O E]]. exists bs. split; [exact O|]. rewrite E. apply H. Qed.

Lemma same_boundary_region m m' : same_boundary m m' -> forall p, mesh_region m' p = mesh_region m p.
Proof.
  intros [B P] p. unfold mesh_region, winding, boundary_segments. f_equal.
  assert (G : forall l l', map bare l' = map bare l ->
    (forall e, In e l -> mh_pos m' (ed_1 e) = mh_pos m (ed_1 e) /\ mh_pos m' (ed_2 e) = mh_pos m (ed_2 e)) ->
    map (fun e => (mh_pos m' (ed_1 e), mh_pos m' (ed_2 e))) l' = map (fun e => (mh_pos m (ed_1 e), mh_pos m (ed_2 e))) l).
  { clear. induction l as [|e l IH]; intros [|e' l'] E H; try discriminate E; [reflexivity|].
    cbn [map] in E. injection E as E0 E1 E2 E3 E4 E5 E6. cbn [map]. rewrite (IH l' E6) by (intros; apply H; right; assumption).
    rewrite E1, E2. destruct (H e (or_introl eq_refl)) as [-> ->]. reflexivity. }
  apply G; assumption.
Qed.

(* counter-clockwise triangles are simple *)
Lemma area2_det p q r : area2 p q r == det p q r.
Proof. unfold area2, det. ring. Qed.
Lemma tri_area_det p q r : 2 * tri_area p q r == det p q r.
Proof. unfold tri_area, det, vcross, vsub. cbn [vx vy]. ring. Qed.
Lemma positive_tri pos f a b c : fa_sh f = Tri3 a b c -> 0 < fa_area pos f -> simple_shape pos (fa_sh f).
Proof. intros E H. unfold fa_area in H. rewrite E in *. cbn. assert (T := tri_area_det (pos a) (pos b) (pos c)). lra. Qed.
Lemma convex_simple pos f : strictly_convex pos f -> simple_shape pos (fa_sh f).
Proof.
  unfold strictly_convex, simple_shape. destruct (fa_sh f) as [a b c|a b c d].
  - rewrite area2_det. auto.
  - intros (A & B & C & D). left. split; [rewrite <- area2_det; exact A|].
    rewrite area2_det in C. assert (X : det (pos a) (pos c) (pos d) == det (pos c) (pos d) (pos a)) by (unfold det; ring). lra.
Qed.
Lemma simple_ext pos pos' s : (forall v, In v (corners s) -> pos' v = pos v) -> simple_shape pos s -> simple_shape pos' s.
Proof.
  destruct s as [a b c|a b c d]; cbn [corners simple_shape]; intros H; rewrite !H by (cbn; auto 10); auto.
Qed.

(* halved boundary edges *)
Lemma halved_region p m c hs : mh_bdry m = in_pairs hs -> Forall2 (halved m) (mh_bdry c) hs ->
  (forall e, In e (mh_bdry c) -> mh_pos m (ed_1 e) = mh_pos c (ed_1 e) /\ mh_pos m (ed_2 e) = mh_pos c (ed_2 e)) ->
  mesh_region m p == mesh_region c p.
Proof.
  intros E F P. unfold mesh_region, winding, boundary_segments. rewrite E. clear E. induction F as [|e [h k] es hs H F IH]; [reflexivity|].
  cbn [in_pairs map esum]. rewrite IH by (intros; apply P; right; assumption).
  destruct H as (A & B & C & [D1 D2] & _). cbn [fst snd] in *. destruct (P e (or_introl eq_refl)) as [P1 P2].
  rewrite <- C, A, B. rewrite P1, P2 in *. unfold vscale, vadd in D1, D2. cbn [vx vy] in D1, D2.
  rewrite (crossing_cut p (mh_pos c (ed_1 e)) (mh_pos c (ed_2 e)) (mh_pos m (ed_2 h)) (1 # 2)); [ring| |]; lra.
Qed.

(* a quad made of two triangles without their common side *)
Lemma det_turn p q r : det q r p == det p q r.
Proof. unfold det. ring. Qed.
Definition tri_ring (a b u : nat) (s : shape) : Prop := s = Tri3 a b u \/ s = Tri3 b u a \/ s = Tri3 u a b.
Lemma tri_ring_of f a b : is_tri f -> In (a, b) (sides f) -> exists u, tri_ring a b u (fa_sh f).
Proof.
  unfold is_tri, sides, tri_ring. destruct (fa_sh f) as [x y z|x y z w]; cbn; [|discriminate]. intros _ [H|[H|[H|[]]]]; injection H as <- <-; eauto.
Qed.
Lemma tri_ring_sides f a b u : tri_ring a b u (fa_sh f) -> Permutation (sides f) [(a, b); (b, u); (u, a)].
Proof.
  unfold sides. intros [H|[H|H]]; rewrite H; cbn.
  - reflexivity.
  - change [(b, u); (u, a); (a, b)] with ([(b, u); (u, a)] ++ [(a, b)]). rewrite Permutation_app_comm. reflexivity.
  - change [(u, a); (a, b); (b, u)] with ([(u, a)] ++ [(a, b); (b, u)]). rewrite Permutation_app_comm. reflexivity.
Qed.
Lemma tri_ring_simple pos a b u s : tri_ring a b u s -> simple_shape pos s -> 0 < det (pos a) (pos b) (pos u).
Proof.
  assert (T1 := det_turn (pos a) (pos b) (pos u)). assert (T2 := det_turn (pos b) (pos u) (pos a)).
  intros [-> |[-> | ->]]; cbn; lra.
Qed.
Lemma joined_simple pos l r h : joined l r h -> NoDup (corners (fa_sh l)) -> NoDup (corners (fa_sh r)) ->
  simple_shape pos (fa_sh l) -> simple_shape pos (fa_sh r) -> simple_shape pos (fa_sh h).
Proof.
  intros (Tl & Tr & Qh & a & b & P) Nl Nr Sl Sr.
  assert (G : forall l r, is_tri l -> is_tri r -> simple_shape pos (fa_sh l) -> simple_shape pos (fa_sh r) ->
    Permutation (sides l ++ sides r) ((a, b) :: (b, a) :: sides h) -> In (a, b) (sides l) -> In (b, a) (sides r) -> simple_shape pos (fa_sh h)).
  { clear l r Tl Tr P Nl Nr Sl Sr. intros l r Tl Tr Sl Sr P Hl Hr.
    destruct (tri_ring_of l a b Tl Hl) as [u U]. destruct (tri_ring_of r b a Tr Hr) as [v V].
    assert (Du := tri_ring_simple pos a b u _ U Sl). assert (Dv := tri_ring_simple pos b a v _ V Sr).
    rewrite (tri_ring_sides l a b u U), (tri_ring_sides r b a v V) in P.
    assert (P2 : Permutation (sides h) [(b, u); (u, a); (a, v); (v, b)]).
    { apply (Permutation_cons_inv (a := (b, a))), (Permutation_cons_inv (a := (a, b))). symmetry.
      etransitivity; [|exact P]. cbn [app]. constructor. change ((b, u) :: (u, a) :: (b, a) :: [(a, v); (v, b)]) with ([(b, u); (u, a)] ++ (b, a) :: [(a, v); (v, b)]).
      exact (Permutation_middle [(b, u); (u, a)] [(a, v); (v, b)] (b, a)). }
    assert (NE : pos u <> pos v). { intros E. rewrite E in Du. assert (X := det_swap (pos a) (pos b) (pos v)). lra. }
    assert (Nuv : u <> v) by congruence.
    assert (Nab : a <> b). { intros ->. unfold det in Du. lra. }
    assert (Nau : a <> u). { intros ->. unfold det in Du. lra. }
    assert (Nbu : b <> u). { intros ->. unfold det in Du. lra. }
    assert (Nav : a <> v). { intros ->. unfold det in Dv. lra. }
    assert (Nbv : b <> v). { intros ->. unfold det in Dv. lra. }
    unfold is_quad in Qh. unfold sides in P2. destruct (fa_sh h) as [x y z|x y z w]; [discriminate Qh|]. cbn in P2.
    assert (I1 : In (x, y) [(b, u); (u, a); (a, v); (v, b)]) by (apply (Permutation_in _ P2); cbn; auto).
    assert (I2 : In (y, z) [(b, u); (u, a); (a, v); (v, b)]) by (apply (Permutation_in _ P2); cbn; auto).
    assert (I3 : In (z, w) [(b, u); (u, a); (a, v); (v, b)]) by (apply (Permutation_in _ P2); cbn; auto).
    assert (T1 := det_turn (pos a) (pos b) (pos u)). assert (T2 := det_turn (pos b) (pos u) (pos a)).
    assert (T3 := det_turn (pos b) (pos a) (pos v)). assert (T4 := det_turn (pos a) (pos v) (pos b)).
    cbn in I1, I2, I3. cbn [simple_shape]. unfold cuts.
    repeat destruct I1 as [I1|I1]; try contradiction; assert (E1 := f_equal fst I1); assert (F1 := f_equal snd I1); cbn [fst snd] in E1, F1; clear I1;
      repeat destruct I2 as [I2|I2]; try contradiction; assert (E2 := f_equal fst I2); assert (F2 := f_equal snd I2); cbn [fst snd] in E2, F2; clear I2;
      try (exfalso; congruence);
      repeat destruct I3 as [I3|I3]; try contradiction; assert (E3 := f_equal fst I3); assert (F3 := f_equal snd I3); cbn [fst snd] in E3, F3; clear I3;
      try (exfalso; congruence); rewrite <- ?E1, <- ?F1, <- ?F2, <- ?F3; clear - Du Dv T1 T2 T3 T4;
      first [left; split; lra|right; split; lra]. }
  assert (Ha : In (a, b) (sides l ++ sides r)) by (apply (Permutation_in _ (Permutation_sym P)); cbn; auto).
  assert (Hb : In (b, a) (sides l ++ sides r)) by (apply (Permutation_in _ (Permutation_sym P)); cbn; auto).
  apply in_app_or in Ha, Hb. destruct Ha as [Ha|Ha], Hb as [Hb|Hb].
  - destruct (side_no_rev l a b Nl Ha Hb).
  - exact (G l r Tl Tr Sl Sr P Ha Hb).
  - apply (G r l); try assumption. etransitivity; [apply Permutation_app_comm|exact P].
  - destruct (side_no_rev r a b Nr Ha Hb).
Qed.
