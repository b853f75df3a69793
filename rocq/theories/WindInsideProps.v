(* C17 and C50: the inside test of the domain agrees with winding numbers, so the
   elements cover the points that the domain calls inside. *)
From Coq Require Import Lqa Lia Permutation.
From Verif Require Import Base Chain GeomModel GeomSpec BdryModel BdrySpec BdryProofs InsideSpec InsideProofs BdryProps
  MeshModel MeshSpec WindSpec WindProofs WindInside.
From Verif Require SmoothProofs WindMesh WindProps FrontSpec AdvanceModel AdvanceSpec WindMeshProps SmoothProps.
Open Scope Q_scope.

(* the inside test of a closed curve that goes through any points is the parity of
   its winding number, for every point that is not on it *)
Theorem C17_winding l o : (3 <= length l)%nat -> clear_of o (ring_edges l) ->
  exists k : Z, winding o (ring_edges l) == inject_Z k /\ is_inside (ring_edges l) o = Z.odd k.
Proof. intros L C. apply inside_odd; [rewrite ring_edges_length; exact L|apply ring_balanced|exact C]. Qed.
(* so for a curve that winds at most once around the point it tells whether it does *)
Theorem C17_simple l o : (3 <= length l)%nat -> clear_of o (ring_edges l) ->
  - (1) <= winding o (ring_edges l) <= 1 ->
  is_inside (ring_edges l) o = true <-> ~ winding o (ring_edges l) == 0.
Proof. intros L C [W1 W2]. apply inside_once; [rewrite ring_edges_length; exact L|apply ring_balanced|exact C|exact W1|exact W2]. Qed.

(* ---------- the domain ---------- *)
Definition domain_segments (bs : list boundary) : list (vec2 * vec2) := flat_map bd_edges bs.
Definition one_exterior (bs : list boundary) : Prop := exists l1 e l2, bs = l1 ++ e :: l2 /\
  bd_type e = EXTERIOR /\ forall b, In b (l1 ++ l2) -> bd_type b = INTERIOR.
(* exterior boundaries run counter-clockwise, interior ones clockwise *)
Definition oriented (o : vec2) (b : boundary) : Prop :=
  match bd_type b with
  | EXTERIOR => 0 <= winding o (bd_edges b) /\ winding o (bd_edges b) <= 1
  | INTERIOR => - (1) <= winding o (bd_edges b) /\ winding o (bd_edges b) <= 0
  end.
Definition curve (b : boundary) : Prop := exists l, bd_edges b = ring_edges l /\ (3 <= length l)%nat.

Lemma curve_once o b : curve b -> clear_of o (bd_edges b) -> oriented o b ->
  (is_inside (bd_edges b) o = true -> winding o (bd_edges b) == match bd_type b with EXTERIOR => 1 | INTERIOR => - (1) end) /\
  (is_inside (bd_edges b) o = false -> winding o (bd_edges b) == 0).
Proof.
  intros (l & E & L) C O. rewrite E in *. unfold oriented in O. rewrite E in O.
  assert (H := inside_once o (ring_edges l)). rewrite ring_edges_length in H. specialize (H L (ring_balanced l) C).
  assert (K : - (1) <= winding o (ring_edges l) /\ winding o (ring_edges l) <= 1) by (destruct (bd_type b); lra).
  destruct (H (proj1 K) (proj2 K)) as [H1 H2]. split.
  - intros I. destruct (H2 I), (bd_type b); lra.
  - intros I. destruct (Qeq_dec (winding o (ring_edges l)) 0) as [Z|N]; [exact Z|]. rewrite (proj2 H1 N) in I. discriminate.
Qed.
Lemma winding_app o es fs : winding o (es ++ fs) == winding o es + winding o fs.
Proof. apply esum_app. Qed.
Lemma interiors o bs : (forall b, In b bs -> bd_type b = INTERIOR /\ curve b /\ clear_of o (bd_edges b) /\ oriented o b) ->
  (domain_inside bs o = true /\ winding o (domain_segments bs) == 0) \/
  (domain_inside bs o = false /\ winding o (domain_segments bs) <= - (1)).
Proof.
  induction bs as [|b bs IH]; intros H.
  - left. split; reflexivity.
  - destruct (H b (or_introl eq_refl)) as (T & Cu & Cl & O). destruct (curve_once o b Cu Cl O) as [I1 I2]. rewrite T in I1.
    assert (IH' := IH (fun c Hc => H c (or_intror Hc))). cbn [domain_segments flat_map]. fold (domain_segments bs).
    assert (D : domain_inside (b :: bs) o = negb (is_inside (bd_edges b) o) && domain_inside bs o).
    { apply eq_true_iff_eq. rewrite andb_true_iff, !C18_inside, negb_true_iff. split.
      - intros K. split; [apply (K b (or_introl eq_refl)); exact T|]. intros c Hc. apply (K c). right. exact Hc.
      - intros [K1 K2] c [<-|Hc]; [split; [congruence|intros _; exact K1]|exact (K2 c Hc)]. }
    rewrite D. assert (WA := winding_app o (bd_edges b) (domain_segments bs)). rewrite WA.
    destruct (is_inside (bd_edges b) o) eqn:I; cbn [negb andb].
    + right. split; [reflexivity|]. assert (E := I1 eq_refl). destruct IH' as [[_ Z]|[_ Z]]; lra.
    + assert (E := I2 eq_refl). destruct IH' as [[A Z]|[A Z]]; [left|right]; (split; [exact A|lra]).
Qed.
Lemma inside_perm bs bs' o : Permutation bs bs' -> domain_inside bs o = domain_inside bs' o.
Proof.
  intros P. apply eq_true_iff_eq. rewrite !C18_inside. split; intros H b Hb; apply H.
  - exact (Permutation_in _ (Permutation_sym P) Hb).
  - exact (Permutation_in _ P Hb).
Qed.
Lemma segments_perm bs bs' o : Permutation bs bs' -> winding o (domain_segments bs) == winding o (domain_segments bs').
Proof. intros P. apply esum_perm. unfold domain_segments. apply Permutation_flat_map. exact P. Qed.

(* the inside test of a domain: the boundaries wind once around the point in total *)
Theorem C17_domain bs o : one_exterior bs ->
  (forall b, In b bs -> curve b /\ clear_of o (bd_edges b) /\ oriented o b) ->
  domain_inside bs o = true <-> 0 < winding o (domain_segments bs).
Proof.
  intros (l1 & e & l2 & -> & T & N) H.
  assert (P : Permutation (l1 ++ e :: l2) (e :: l1 ++ l2)) by (apply Permutation_sym, Permutation_middle).
  rewrite (inside_perm _ _ o P), (segments_perm _ _ o P).
  destruct (H e ltac:(rewrite in_app_iff; right; left; reflexivity)) as (Cu & Cl & O).
  destruct (curve_once o e Cu Cl O) as [I1 I2]. rewrite T in I1.
  assert (HI : forall b, In b (l1 ++ l2) -> bd_type b = INTERIOR /\ curve b /\ clear_of o (bd_edges b) /\ oriented o b).
  { intros b Hb. split; [exact (N b Hb)|]. apply H. apply in_app_iff in Hb. rewrite in_app_iff. cbn [In]. tauto. }
  cbn [domain_segments flat_map]. fold (domain_segments (l1 ++ l2)). rewrite winding_app.
  assert (D : domain_inside (e :: l1 ++ l2) o = is_inside (bd_edges e) o && domain_inside (l1 ++ l2) o).
  { apply eq_true_iff_eq. rewrite andb_true_iff, !C18_inside. split.
    - intros K. split; [apply (K e (or_introl eq_refl)); exact T|]. intros c Hc. apply (K c). right. exact Hc.
    - intros [K1 K2] c [<-|Hc]; [split; [intros _; exact K1|congruence]|exact (K2 c Hc)]. }
  rewrite D. destruct (interiors o (l1 ++ l2) HI) as [[A Z]|[A Z]]; rewrite A; destruct (is_inside (bd_edges e) o) eqn:I; cbn [andb].
  - assert (E := I1 eq_refl). split; [intros _; lra|reflexivity].
  - assert (E := I2 eq_refl). split; [discriminate|intros X; exfalso; lra].
  - assert (E := I1 eq_refl). split; [discriminate|intros X; exfalso; lra].
  - assert (E := I2 eq_refl). split; [discriminate|intros X; exfalso; lra].
Qed.

(* elements that tile the region of the domain boundary (C50_domain_partial) cover
   exactly the points that the domain calls inside *)
Theorem C50_inside pos ss bs o : tiles pos ss (fun p => winding p (domain_segments bs)) -> one_exterior bs ->
  (forall b, In b bs -> curve b /\ clear_of o (bd_edges b) /\ oriented o b) ->
  (domain_inside bs o = true -> exists s, In s ss /\ in_closure pos s o) /\
  (domain_inside bs o = false -> forall s, In s ss -> ~ inside_shape pos s o).
Proof.
  intros T X H. assert (D := C17_domain bs o X H). split.
  - intros I. exact (tiles_cover _ _ _ o T (tiles_pos _ _ _ o T (proj1 D I))).
  - intros I s Hs J. assert (W := tiles_only _ _ _ o s T Hs J). cbn beta in W. rewrite (proj2 D ltac:(lra)) in I. discriminate.
Qed.

(* ---------- finished meshes ---------- *)
(* the boundary edges of a conforming mesh are closed curves *)
Lemma boundary_balanced m : conforming m -> balanced (WindMesh.boundary_segments m).
Proof.
  intros C f. set (g := fun v => f (mh_pos m v)).
  assert (E : esum (fun a b => f b - f a) (WindMesh.boundary_segments m) == esum (fun a b => g b - g a) (map SmoothProofs.ends_of (mh_bdry m))).
  { unfold WindMesh.boundary_segments. induction (mh_bdry m) as [|e l IH]; [reflexivity|]. cbn [map esum SmoothProofs.ends_of]. rewrite IH. reflexivity. }
  rewrite E.
  assert (Z : esum (fun a b => g b - g a) (flat_map SmoothProofs.both (mh_intr m)) == 0).
  { induction (mh_intr m) as [|e l IH]; [reflexivity|]. cbn [flat_map SmoothProofs.both app esum]. rewrite IH. ring. }
  assert (A : esum (fun a b => g b - g a) (all_sides m) == 0).
  { rewrite <- WindMesh.shapes_sides. induction (WindMesh.shapes m) as [|s l IH]; [reflexivity|]. cbn [flat_map]. rewrite esum_app, IH.
    rewrite (ring_balanced (corners s) g). ring. }
  assert (P := esum_perm (fun a b => g b - g a) _ _ (SmoothProofs.sides_perm m C)). rewrite esum_app in P.
  lra.
Qed.
(* the inside test on the mesh boundary finds the covered points *)
Theorem C50_boundary_inside m o : conforming m -> WindMesh.simple_elements m -> simple_region (WindMesh.mesh_region m) ->
  (3 <= length (mh_bdry m))%nat -> clear_of o (WindMesh.boundary_segments m) ->
  (is_inside (WindMesh.boundary_segments m) o = true -> exists f, In f (facets m) /\ in_closure (mh_pos m) (fa_sh f) o) /\
  (is_inside (WindMesh.boundary_segments m) o = false -> forall f, In f (facets m) -> ~ inside_shape (mh_pos m) (fa_sh f) o).
Proof.
  intros C S R L K. assert (T := WindMesh.mesh_tiles m C S).
  assert (L' : (3 <= length (WindMesh.boundary_segments m))%nat) by (unfold WindMesh.boundary_segments; rewrite map_length; exact L).
  assert (NN := tiles_nonneg _ _ _ o T). assert (RO := R o). unfold WindMesh.mesh_region in NN, RO.
  destruct (inside_once o _ L' (boundary_balanced m C) K ltac:(lra) RO) as [I1 I2]. split.
  - intros I. assert (P : 0 < WindMesh.mesh_region m o) by (unfold WindMesh.mesh_region; destruct (I2 I); lra).
    destruct (tiles_cover _ _ _ o T (tiles_pos _ _ _ o T P)) as (s & Hs & Cl). apply in_map_iff in Hs. destruct Hs as (f & <- & Hf). exists f. split; assumption.
  - intros I f Hf J. assert (W := tiles_only _ _ _ o (fa_sh f) T (in_map fa_sh _ f Hf) J). unfold WindMesh.mesh_region in W.
    rewrite (proj2 I1 ltac:(lra)) in I. discriminate.
Qed.

(* ---------- cases ---------- *)
(* a square with a square hole, a point in the row of a side of the hole *)
Definition frame : list boundary :=
  [Bd EXTERIOR (ring_edges [V2 0 0; V2 4 0; V2 4 4; V2 0 4]) 16; Bd INTERIOR (ring_edges [V2 1 1; V2 1 2; V2 2 2; V2 2 1]) (- (1))].
Lemma between x a b t : 0 <= t -> t <= 1 -> x == a + t * (b - a) -> (x < a -> x < b -> False) /\ (a < x -> b < x -> False).
Proof.
  intros T0 T1 E. assert (Z : (1 - t) * (a - x) + t * (b - x) == 0) by (rewrite E; ring). clear E.
  destruct (Qlt_le_dec t 1) as [L|L]; split; intros A B.
  - assert (0 < (1 - t) * (a - x)) by nra. assert (0 <= t * (b - x)) by nra. lra.
  - assert (0 < (1 - t) * (x - a)) by nra. assert (0 <= t * (x - b)) by nra. lra.
  - assert (E : t == 1) by lra. rewrite E in Z. lra.
  - assert (E : t == 1) by lra. rewrite E in Z. lra.
Qed.
Lemma off_by o a b : ~ det a b o == 0 \/ (vx o < vx a /\ vx o < vx b) \/ (vx a < vx o /\ vx b < vx o) \/
  (vy o < vy a /\ vy o < vy b) \/ (vy a < vy o /\ vy b < vy o) -> ~ on_segment o a b.
Proof.
  intros H (t & T0 & T1 & X & Y). unfold on_seg in X, Y. cbn [vx vy] in X, Y. destruct H as [H|H].
  - apply H. unfold det. rewrite X, Y. ring.
  - destruct (between _ _ _ t T0 T1 X) as [X1 X2], (between _ _ _ t T0 T1 Y) as [Y1 Y2].
    destruct H as [[H1 H2]|[[H1 H2]|[[H1 H2]|[H1 H2]]]]; auto.
Qed.
Definition clearb (o : vec2) (e : vec2 * vec2) : bool :=
  let a := fst e in let b := snd e in
  (negb (Qeq_bool (det a b o) 0) || Qltb (vx o) (vx a) && Qltb (vx o) (vx b) || Qltb (vx a) (vx o) && Qltb (vx b) (vx o) ||
   Qltb (vy o) (vy a) && Qltb (vy o) (vy b) || Qltb (vy a) (vy o) && Qltb (vy b) (vy o)) &&
  (negb (EQd (vy o) (vy a)) || Qeq_bool (vy o) (vy a)) && (negb (EQd (vy o) (vy b)) || Qeq_bool (vy o) (vy b)) &&
  (negb (Qeq_bool (vx a) (vx b)) || negb (Qeq_bool (vy a) (vy b))).
Lemma clearb_sound o es : forallb (clearb o) es = true -> clear_of o es.
Proof.
  intros H. rewrite forallb_forall in H.
  assert (Q : forall e, In e es -> ~ on_segment o (fst e) (snd e) /\ ((EQd (vy o) (vy (fst e)) = true -> vy o == vy (fst e)) /\
    (EQd (vy o) (vy (snd e)) = true -> vy o == vy (snd e))) /\ ~ veq (fst e) (snd e)).
  { intros e He. specialize (H e He). unfold clearb in H. rewrite !andb_true_iff, !orb_true_iff, !andb_true_iff, !negb_true_iff in H.
    destruct H as [[[H1 H2] H3] H4]. split; [|split; [split|]].
    - apply off_by. rewrite !Qltb_true in H1. destruct H1 as [[[[H1|H1]|H1]|H1]|H1]; [left|tauto|tauto|tauto|tauto].
      intros Z. apply Qeq_bool_iff in Z. congruence.
    - intros E. destruct H2 as [H2|H2]; [congruence|]. apply Qeq_bool_iff. exact H2.
    - intros E. destruct H3 as [H3|H3]; [congruence|]. apply Qeq_bool_iff. exact H3.
    - intros [X Y]. apply Qeq_bool_iff in X, Y. destruct H4; congruence. }
  split; [|split].
  - intros a b I. exact (proj1 (Q (a, b) I)).
  - intros e I. exact (proj1 (proj2 (Q e I))).
  - intros e I. exact (proj2 (proj2 (Q e I))).
Qed.
Definition meets (bs : list boundary) (o : vec2) : Prop := forall b, In b bs -> curve b /\ clear_of o (bd_edges b) /\ oriented o b.
Lemma frame_meets o : forallb (clearb o) (domain_segments frame) = true ->
  forallb (fun b => match bd_type b with
    | EXTERIOR => Qle_bool 0 (winding o (bd_edges b)) && Qle_bool (winding o (bd_edges b)) 1
    | INTERIOR => Qle_bool (- (1)) (winding o (bd_edges b)) && Qle_bool (winding o (bd_edges b)) 0 end) frame = true -> meets frame o.
Proof.
  intros C W b Hb. split; [|split].
  - destruct Hb as [<-|[<-|[]]]; [exists [V2 0 0; V2 4 0; V2 4 4; V2 0 4]|exists [V2 1 1; V2 1 2; V2 2 2; V2 2 1]]; split; cbn; [reflexivity|lia|reflexivity|lia].
  - apply clearb_sound. apply forallb_forall. intros e He. rewrite forallb_forall in C. apply C. apply in_flat_map. exists b. split; assumption.
  - rewrite forallb_forall in W. specialize (W b Hb). unfold oriented. destruct (bd_type b); apply andb_true_iff in W; destruct W as [W1 W2];
      split; apply Qle_bool_iff; assumption.
Qed.
Example C17_frame_case : one_exterior frame /\
  (meets frame (V2 3 1) /\ domain_inside frame (V2 3 1) = true /\ 0 < winding (V2 3 1) (domain_segments frame)) /\
  (meets frame (V2 (3 # 2) (3 # 2)) /\ domain_inside frame (V2 (3 # 2) (3 # 2)) = false) /\
  (meets frame (V2 5 1) /\ domain_inside frame (V2 5 1) = false) /\
  is_inside (ring_edges [V2 1 1; V2 1 2; V2 2 2; V2 2 1]) (V2 (3 # 2) (3 # 2)) = true.
Proof.
  split; [|split; [|split; [|split]]].
  - exists [], (Bd EXTERIOR (ring_edges [V2 0 0; V2 4 0; V2 4 4; V2 0 4]) 16), [Bd INTERIOR (ring_edges [V2 1 1; V2 1 2; V2 2 2; V2 2 1]) (- (1))].
    split; [reflexivity|]. split; [reflexivity|]. intros b [<-|[]]. reflexivity.
  - split; [apply frame_meets; vm_compute; reflexivity|]. split; vm_compute; reflexivity.
  - split; [apply frame_meets; vm_compute; reflexivity|]. vm_compute; reflexivity.
  - split; [apply frame_meets; vm_compute; reflexivity|]. vm_compute; reflexivity.
  - vm_compute. reflexivity.
Qed.
(* the box meshed by the advancing front in C50_box_case *)
Example C50_inside_case : exists pos ss bs, tiles pos ss (fun p => winding p (domain_segments bs)) /\ one_exterior bs /\
  (curve (hd (Bd INTERIOR [] 0) bs) /\ meets bs (V2 1 (1 # 2))) /\ domain_inside bs (V2 1 (1 # 2)) = true /\
  exists s, In s ss /\ in_closure pos s (V2 1 (1 # 2)).
Proof.
  destruct WindProps.C50_box_case as (_ & (st & _ & _ & _ & T) & _).
  set (b := Bd EXTERIOR (map FrontSpec.de_ends WindProps.box2) 4).
  exists (AdvanceModel.ms_pos st), (map WindProps.tri_shape (AdvanceSpec.generated st)), [b].
  assert (C : curve b) by (exists [V2 0 0; V2 2 0; V2 2 2; V2 0 2]; split; cbn; [reflexivity|lia]).
  assert (M : meets [b] (V2 1 (1 # 2))).
  { intros c [<-|[]]. split; [exact C|]. split; [apply clearb_sound; vm_compute; reflexivity|]. split; vm_compute; discriminate. }
  assert (O : one_exterior [b]) by (exists [], b, []; split; [reflexivity|split; [reflexivity|intros c []]]).
  assert (T' : tiles (AdvanceModel.ms_pos st) (map WindProps.tri_shape (AdvanceSpec.generated st)) (fun p => winding p (domain_segments [b]))) by exact T.
  assert (I : domain_inside [b] (V2 1 (1 # 2)) = true) by (vm_compute; reflexivity).
  split; [exact T'|]. split; [exact O|]. split; [split; [exact C|exact M]|]. split; [exact I|].
  exact (proj1 (C50_inside _ _ _ _ T' O M) I).
Qed.
Example C50_boundary_case : let m := SmoothProps.fan_mesh 0 in conforming m /\ WindMesh.simple_elements m /\ simple_region (WindMesh.mesh_region m) /\
  (3 <= length (mh_bdry m))%nat /\ clear_of (V2 3 1) (WindMesh.boundary_segments m) /\ is_inside (WindMesh.boundary_segments m) (V2 3 1) = true /\
  clear_of (V2 5 1) (WindMesh.boundary_segments m) /\ is_inside (WindMesh.boundary_segments m) (V2 5 1) = false.
Proof.
  cbv zeta. destruct WindMeshProps.C50_fan_case as (S & E & R & _).
  split; [apply S|]. split; [exact E|]. split; [exact R|]. split; [cbn; lia|].
  split; [apply clearb_sound; vm_compute; reflexivity|]. split; [vm_compute; reflexivity|].
  split; [apply clearb_sound; vm_compute; reflexivity|]. vm_compute; reflexivity.
Qed.

Print Assumptions C17_winding.
Print Assumptions C17_simple.
Print Assumptions C17_domain.
Print Assumptions C50_inside.
Print Assumptions C50_boundary_inside.
