(* Property C38: the completeness check. *)
From Coq Require Import Lia Lqa Qabs.
From Verif Require Import Base GeomModel GeomSpec FacetModel UtilModel Chain MeshModel MeshSpec MeshProofs MeshCheck MeshProps CheckModel CheckSpec.
Open Scope Q_scope.

(* ---- the extent of the domain ---- *)
Lemma qmin_le a b : Qminb a b <= a /\ Qminb a b <= b /\ (Qminb a b = a \/ Qminb a b = b).
Proof. unfold Qminb. destruct (Qltb a b) eqn:E; [apply Qltb_true in E|apply Qltb_false in E]; (split; [lra|split; [lra|auto]]). Qed.
Lemma qmax_ge a b : a <= Qmaxb a b /\ b <= Qmaxb a b /\ (Qmaxb a b = a \/ Qmaxb a b = b).
Proof. unfold Qmaxb. destruct (Qltb b a) eqn:E; [apply Qltb_true in E|apply Qltb_false in E]; (split; [lra|split; [lra|auto]]). Qed.
Lemma grow_spec (get : vec2 -> Q) vs : forall seen lo hi, range_of seen lo hi ->
  let r := fold_left (fun r v => (Qminb (fst r) (get v), Qmaxb (snd r) (get v))) vs (lo, hi) in
  range_of (seen ++ map get vs) (fst r) (snd r).
Proof.
  induction vs as [|v vs IH]; intros seen lo hi R; cbn [fold_left map fst snd].
  - rewrite app_nil_r. exact R.
  - replace (seen ++ get v :: map get vs) with ((seen ++ [get v]) ++ map get vs) by (rewrite <- app_assoc; reflexivity). apply IH. destruct R as (A & B & C). split; [|split].
    + intros x Hx. apply in_app_or in Hx. pose proof (qmin_le lo (get v)). pose proof (qmax_ge hi (get v)). destruct Hx as [Hx|[<-|[]]]; [specialize (A x Hx)|]; lra.
    + apply in_or_app. destruct (qmin_le lo (get v)) as (_ & _ & [-> | ->]); [left; exact B|right; left; reflexivity].
    + apply in_or_app. destruct (qmax_ge hi (get v)) as (_ & _ & [-> | ->]); [left; exact C|right; left; reflexivity].
Qed.
(* the box of the check always contains the origin *)
Theorem C38_extent vs : box_of (V2 0 0 :: vs) (fst (fst (extent vs))) (snd (fst (extent vs))) (fst (snd (extent vs))) (snd (snd (extent vs))).
Proof.
  split; cbn [map extent fst snd].
  - apply (grow_spec vx vs [0] 0 0). split; [intros x [<-|[]]; lra|]. split; left; reflexivity.
  - apply (grow_spec vy vs [0] 0 0). split; [intros x [<-|[]]; lra|]. split; left; reflexivity.
Qed.
Lemma range_unique xs lo hi lo' hi' : range_of xs lo hi -> range_of xs lo' hi' -> lo == lo' /\ hi == hi'.
Proof. intros (A & B & C) (A' & B' & C'). pose proof (A lo' B'). pose proof (A' lo B). pose proof (A hi' C'). pose proof (A' hi C). lra. Qed.
Lemma range_zero xs lo hi : range_of xs lo hi -> lo <= 0 <= hi -> range_of (0 :: xs) lo hi.
Proof. intros (A & B & C) Z. split; [intros x [<-|Hx]; [exact Z|apply A; exact Hx]|]. split; right; assumption. Qed.

(* ---- the parts of the check ---- *)
Lemma front_none m : length (front_edges m) = 0%nat ->
  (forall e, In e (mh_intr m) -> is_some (ed_l e) = true /\ is_some (ed_r e) = true) /\
  (forall e, In e (mh_bdry m) -> is_some (ed_l e) = true).
Proof.
  intros H. apply length_zero_iff_nil in H. unfold front_edges in H. apply app_eq_nil in H. destruct H as [H1 H2].
  assert (Z : forall (p : medge -> bool) l, filter p l = [] -> forall x, In x l -> p x = false).
  { intros p l E x Hx. destruct (p x) eqn:P; [|reflexivity]. assert (K : In x (filter p l)) by (apply filter_In; auto). rewrite E in K. destruct K. }
  split; intros e He.
  - specialize (Z _ _ H1 e He). cbn in Z. apply orb_false_iff in Z. destruct Z as [Z1 Z2]. apply negb_false_iff in Z1, Z2. auto.
  - specialize (Z _ _ H2 e He). cbn in Z. apply negb_false_iff in Z. exact Z.
Qed.
Lemma edge_facet_sound m e : (forall f, In f (facets m) -> NoDup (corners (fa_sh f))) -> edge_has_facet m e = true -> has_element m e.
Proof.
  intros ND H. apply andb_true_iff in H. destruct H as [H _]. apply existsb_exists in H. destruct H as (f & Hf & S).
  apply facets_at_in in Hf. destruct Hf as [Hf _]. destruct (side_index (fa_sh f) (ed_1 e) (ed_2 e)) as [i|] eqn:I; [|discriminate].
  apply (side_index_spec f _ _ _ (ND f Hf)) in I. exists f. split; [exact Hf|]. destruct I as [I|I]; [left|right]; apply (side_at_in _ _ _ I).
Qed.
Lemma edge_facet_complete m e f : NoDup (corners (fa_sh f)) -> In f (facets m) -> In (ed_1 e, ed_2 e) (sides f) \/ In (ed_2 e, ed_1 e) (sides f) -> edge_has_facet m e = true.
Proof.
  intros ND Hf S. assert (I : exists i, side_index (fa_sh f) (ed_1 e) (ed_2 e) = Some i).
  { destruct S as [S|S]; destruct (in_side_at _ _ S) as [i I]; exists i; apply (side_index_spec f _ _ _ ND); auto. }
  destruct I as [i I]. assert (C : In (ed_1 e) (corners (fa_sh f)) /\ In (ed_2 e) (corners (fa_sh f))).
  { destruct S as [S|S]; apply side_corners in S; tauto. }
  unfold edge_has_facet. apply andb_true_iff. split; apply existsb_exists; exists f; (split; [apply facets_at_in; tauto|rewrite I; reflexivity]).
Qed.
Lemma area_sound a d vs : check_area a d vs = true ->
  exists x0 x1 y0 y1, box_of (V2 0 0 :: vs) x0 x1 y0 y1 /\ 0 < (x1 - x0) * (y1 - y0) /\ Qabs (a - d) < area_threshold * ((x1 - x0) * (y1 - y0)).
Proof.
  unfold check_area. pose proof (C38_extent vs) as E. destruct (extent vs) as [[x0 x1] [y0 y1]]. cbn [fst snd] in *.
  destruct (Qeq_bool _ 0) eqn:Z; [discriminate|]. intros H. apply Qltb_true in H. exists x0, x1, y0, y1. split; [exact E|].
  destruct E as [(A & B & C) (A' & B' & C')]. assert (X := A 0 (or_introl eq_refl)). assert (Y := A' 0 (or_introl eq_refl)).
  set (s := (x1 - x0) * (y1 - y0)) in *. assert (P : 0 <= s) by (unfold s; apply Qmult_le_0_compat; lra).
  assert (NZ : ~ s == 0) by (intros K; apply Qeq_bool_iff in K; congruence).
  assert (P' : 0 < s) by (destruct (Qle_lt_or_eq _ _ P) as [K|K]; [exact K|exfalso; apply NZ; symmetry; exact K]).
  split; [exact P'|]. clearbody s. set (t := Qabs (a - d)) in *. clearbody t. assert (K : t == t / s * s) by (field; exact NZ). rewrite K. clear -H P'. set (q := t / s) in *. clearbody q.
  apply Qmult_lt_compat_r; assumption.
Qed.

(* What a positive answer guarantees.  What is missing (C38_refuted): the box is
   not the one of the domain but also contains the origin, the area is the
   area counter of the mesh (C38_covered), and the facet pointers of an edge may be old
   (C38_stale_refuted, C38_two_elements). *)
Theorem C38_check_partial cleanup m d vs :
  (forall f, In f (facets m) -> NoDup (corners (fa_sh f))) -> snd (check_completeness cleanup m d vs) = true ->
  let m' := fst (check_completeness cleanup m d vs) in
  front_edges m' = [] /\
  (forall e, In e (mh_intr m') -> (exists f, ed_l e = Some f) /\ exists f, ed_r e = Some f) /\
  (forall e, In e (mh_bdry m') -> exists f, ed_l e = Some f) /\
  (forall e, In e (all_edges m') -> has_element m' e) /\
  exists x0 x1 y0 y1, box_of (V2 0 0 :: vs) x0 x1 y0 y1 /\ Qabs (mh_area m - d) < area_threshold * ((x1 - x0) * (y1 - y0)).
Proof.
  unfold check_completeness. cbn [fst snd]. set (m' := if cleanup then setup_facet_connectivity m else m). intros ND H. cbv zeta.
  apply andb_true_iff in H. destruct H as [H A]. apply andb_true_iff in H. destruct H as [F V]. apply Nat.eqb_eq in F.
  assert (FA : facets m' = facets m) by (unfold m'; destruct cleanup; reflexivity).
  assert (AR : mh_area m' = mh_area m) by (unfold m'; destruct cleanup; reflexivity).
  split; [apply length_zero_iff_nil; exact F|]. destruct (front_none _ F) as [F1 F2].
  split; [intros e He; destruct (F1 e He) as [X Y]; destruct (ed_l e), (ed_r e); try discriminate; split; eauto|].
  split; [intros e He; specialize (F2 e He); destruct (ed_l e); [eauto|discriminate]|].
  split.
  - intros e He. apply edge_facet_sound; [intros f Hf; apply ND; rewrite <- FA; exact Hf|].
    apply andb_true_iff in V. destruct V as [V1 V2]. apply in_app_or in He. destruct He as [He|He]; [exact (proj1 (forallb_forall _ _) V1 e He)|exact (proj1 (forallb_forall _ _) V2 e He)].
  - rewrite AR in A. destruct (area_sound _ _ _ A) as (x0 & x1 & y0 & y1 & B & _ & L). exists x0, x1, y0, y1. auto.
Qed.

(* with the area counter equal to the area of the elements and a domain whose
   bounding box contains the origin, the area condition is the one stated *)
Theorem C38_covered cleanup m d vs x0 x1 y0 y1 :
  (forall f, In f (facets m) -> NoDup (corners (fa_sh f))) -> snd (check_completeness cleanup m d vs) = true ->
  mh_area m == element_area m -> box_of vs x0 x1 y0 y1 -> x0 <= 0 <= x1 -> y0 <= 0 <= y1 ->
  Qabs (element_area m - d) < area_threshold * ((x1 - x0) * (y1 - y0)).
Proof.
  intros ND H E [B1 B2] X Y. destruct (C38_check_partial cleanup m d vs ND H) as (_ & _ & _ & _ & a0 & a1 & b0 & b1 & [C1 C2] & L).
  destruct (range_unique _ _ _ _ _ C1 (range_zero _ _ _ B1 X)) as [E1 E2]. destruct (range_unique _ _ _ _ _ C2 (range_zero _ _ _ B2 Y)) as [E3 E4].
  rewrite E, E1, E2, E3, E4 in L. exact L.
Qed.

(* if no pointer was set before, interior edges are sides of two elements *)
Lemma set_side_cases m f e : (ed_l (set_side m f e) = Some (fa_id f) /\ ed_r (set_side m f e) = ed_r e) \/
  (ed_l (set_side m f e) = ed_l e /\ ed_r (set_side m f e) = Some (fa_id f)).
Proof. unfold set_side. destruct (is_left _ _ _); auto. Qed.
Theorem C38_two_elements m d vs : NoDup (map fa_id (facets m)) -> (forall f, In f (facets m) -> NoDup (corners (fa_sh f))) ->
  (forall e, In e (all_edges m) -> ed_1 e <> ed_2 e) ->
  (forall e, In e (mh_intr m) -> ed_l e = None /\ ed_r e = None) ->
  snd (check_completeness true m d vs) = true ->
  forall e, In e (mh_intr m) -> has_two_elements m e.
Proof.
  intros NI ND NE U H e He. destruct (C38_check_partial true m d vs ND H) as (_ & F & _). cbn [check_completeness fst] in F.
  destruct (F (connect_intr m e)) as [[x L] [y R]]; [apply in_map; exact He|]. destruct (U e He) as [U1 U2].
  unfold connect_intr in L, R. destruct (sharing m (ed_1 e) (ed_2 e)) as [|[f i] [|[g j] r]] eqn:S.
  - congruence.
  - destruct (set_side_cases m f e) as [[A B]|[A B]]; congruence.
  - assert (N := sharing_nodup m (ed_1 e) (ed_2 e) NI). rewrite S in N.
    assert (F1 : In (f, i) (sharing m (ed_1 e) (ed_2 e))) by (rewrite S; left; reflexivity).
    assert (G1 : In (g, j) (sharing m (ed_1 e) (ed_2 e))) by (rewrite S; right; left; reflexivity).
    apply (sharing_in m _ _ f i ND) in F1. apply (sharing_in m _ _ g j ND) in G1. destruct F1 as [Hf Sf], G1 as [Hg Sg].
    exists f, g. split; [exact Hf|]. split; [exact Hg|]. split.
    + intros <-. assert (IJ : i = j).
      { assert (X1 := proj2 (side_index_spec f (ed_1 e) (ed_2 e) i (ND f Hf)) Sf). assert (X2 := proj2 (side_index_spec f (ed_1 e) (ed_2 e) j (ND f Hf)) Sg). congruence. }
      subst j. inversion N as [|? ? N1 N2]. apply N1. left. reflexivity.
    + split; [destruct Sf as [K|K]|destruct Sg as [K|K]]; [left|right|left|right]; apply (side_at_in _ _ _ K).
Qed.

(* the check accepts every conforming mesh with the right area *)
Theorem C38_accepts m d vs : conforming m -> (forall f, In f (facets m) -> centred (mh_pos m) f) -> mh_area m == d ->
  ~ (snd (fst (extent vs)) - fst (fst (extent vs))) * (snd (snd (extent vs)) - fst (snd (extent vs))) == 0 ->
  snd (check_completeness true m d vs) = true.
Proof.
  intros C N A B. unfold check_completeness. cbn [snd].
  destruct (C30_edge_facets_partial m C N) as (EI & EB & F). rewrite F. cbn [length Nat.eqb andb].
  apply andb_true_iff. split.
  - unfold check_mesh_validity. apply andb_true_iff. split; apply forallb_forall; intros x Hx; cbn [setup_facet_connectivity mh_intr mh_bdry] in Hx; apply in_map_iff in Hx; destruct Hx as (e & <- & He).
    + destruct (EI e He) as (f & g & Hf & _ & Sf & _). apply (edge_facet_complete _ _ f); [apply (cf_corners _ C f Hf)|exact Hf|]. left.
      unfold connect_intr. destruct (sharing m (ed_1 e) (ed_2 e)) as [|[a i] [|[b j] r]]; [exact Sf| |].
      * destruct (set_side_ends m a e) as (-> & -> & _). exact Sf.
      * destruct (set_side_ends m b (set_side m a e)) as (-> & -> & _). destruct (set_side_ends m a e) as (-> & -> & _). exact Sf.
    + destruct (EB e He) as (f & Hf & Sf & _). apply (edge_facet_complete _ _ f); [apply (cf_corners _ C f Hf)|exact Hf|]. left.
      unfold connect_bdry. destruct (sharing m (ed_1 e) (ed_2 e)) as [|[a i] r]; [exact Sf|]. destruct (is_left _ _ _); [|exact Sf].
      destruct (set_side_ends m a e) as (-> & -> & _). exact Sf.
  - cbn [setup_facet_connectivity mh_area]. unfold check_area. destruct (extent vs) as [[x0 x1] [y0 y1]]. cbn [fst snd] in B. destruct (Qeq_bool _ 0) eqn:Z; [exfalso; apply B; apply Qeq_bool_iff; exact Z|].
    apply Qltb_true. assert (E : Qabs (mh_area m - d) == 0) by (assert (mh_area m - d == 0) as -> by lra; reflexivity). rewrite E. unfold Qdiv. rewrite Qmult_0_l. reflexivity.
Qed.

(* ---- concrete cases ---- *)
Definition house_verts : list vec2 := [V2 0 0; V2 2 0; V2 2 2; V2 1 4; V2 0 2].
Example C38_example : snd (check_completeness true house 6 house_verts) = false /\ (* its counter says 5 *)
  snd (check_completeness true house 5 house_verts) = true /\ mh_area house == 5 /\
  box_of house_verts 0 2 0 4.
Proof.
  split; [vm_compute; reflexivity|]. split; [vm_compute; reflexivity|]. split; [reflexivity|].
  split; (split; [intros x Hx; cbn in Hx; repeat destruct Hx as [Hx|Hx]; try contradiction; subst; cbn; lra|cbn; intuition]).
Qed.

(* one half of a square with sides of 1/1000 near (100, 100): all boundary edges of
   the mesh have their element and the answer is true although half of the
   area is missing *)
Definition far_verts : list vec2 := [V2 100 100; V2 (100001 # 1000) 100; V2 (100001 # 1000) (100001 # 1000); V2 100 (100001 # 1000)].
Definition far_mesh : mesh :=
  MH (ptl far_verts) (fun _ => 0%N) [0;1;2]%nat [] [FA 5 (Tri3 0 1 2) 7 true] []
     [fresh_edge 8 0 1 1; fresh_edge 9 1 2 2; fresh_edge 10 2 0 3] (fun _ _ => None) 13 (1 # 2000000) 1 1000.
Theorem C38_refuted : exists m vs d x0 x1 y0 y1, conforming m /\ mh_area m == element_area m /\
  d == polygon_area vs /\ box_of vs x0 x1 y0 y1 /\
  snd (check_completeness true m d vs) = true /\
  element_area m == (1 # 2) * d /\ ~ Qabs (element_area m - d) < area_threshold * ((x1 - x0) * (y1 - y0)).
Proof.
  exists far_mesh, far_verts, (1 # 1000000), 100, (100001 # 1000), 100, (100001 # 1000).
  split; [apply conformingb_sound; vm_compute; reflexivity|]. split; [vm_compute; reflexivity|]. split; [vm_compute; reflexivity|].
  split; [split; (split; [intros x Hx; cbn in Hx; repeat destruct Hx as [Hx|Hx]; try contradiction; subst; split; vm_compute; discriminate|cbn; intuition])|].
  split; [vm_compute; reflexivity|]. split; [vm_compute; reflexivity|]. vm_compute. discriminate.
Qed.

(* an interior edge with one element only and an old pointer on the other side
   (the other element has been removed) is not reported *)
Definition stale_mesh : mesh :=
  MH (ptl [V2 0 0; V2 2 0; V2 2 2; V2 0 2]) (fun _ => 0%N) [0;1;2]%nat [] [FA 5 (Tri3 0 1 2) 7 true]
     [ED 7 2 0 (-1) 0 None (Some 6%nat) None] [fresh_edge 8 0 1 1; fresh_edge 9 1 2 2] (fun _ _ => None) 13 2 1 100.
Theorem C38_stale_refuted : exists m vs d e, NoDup (map fa_id (facets m)) /\ (forall f, In f (facets m) -> NoDup (corners (fa_sh f))) /\
  snd (check_completeness true m d vs) = true /\ In e (mh_intr m) /\ ~ has_two_elements m e.
Proof.
  exists stale_mesh, [V2 0 0; V2 2 0; V2 2 2; V2 0 2], 2, (ED 7 2 0 (-1) 0 None (Some 6%nat) None).
  split; [repeat constructor; cbn; tauto|]. split; [intros f [<-|[]]; cbn; repeat constructor; cbn; intuition discriminate|].
  split; [vm_compute; reflexivity|]. split; [left; reflexivity|]. intros (f & g & [<-|[]] & [<-|[]] & N & _). apply N. reflexivity.
Qed.

Print Assumptions C38_extent.
Print Assumptions C38_check_partial.
Print Assumptions C38_covered.
Print Assumptions C38_two_elements.
Print Assumptions C38_accepts.
Print Assumptions C38_refuted.
Print Assumptions C38_stale_refuted.
