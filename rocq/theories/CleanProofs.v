(* Proofs about the cleanup passes: each record of a pass is one merge step, the
   batch of a pass equals the steps one after the other, and the scan finds
   disjoint pairs. *)
From Coq Require Import Lia Permutation Lqa Setoid Relations.
From Verif Require Import Base GeomModel FacetModel UtilModel AdvanceModel Chain AdvanceProofs MeshModel MeshSpec MeshProofs
  QRefineModel QRefineSpec QRefineShape QRefineConf MeshProps CleanSpec CleanModel MergeProofs.

(* ---------- removing listed items from a list ---------- *)
Lemma perm_pick {A} (p : A -> bool) (olds l : list A) : NoDup l -> NoDup olds -> incl olds l ->
  (forall x, In x l -> (p x = true <-> In x olds)) ->
  Permutation l (olds ++ filter (fun x => negb (p x)) l).
Proof.
  intros N1 N2 I S. rewrite <- (filter_split p l) at 1. apply Permutation_app_tail. apply NoDup_Permutation; [apply NoDup_filter; exact N1|exact N2|].
  intros x. rewrite filter_In. split; [intros [H1 H2]; apply S; assumption|]. intros H. split; [apply I; exact H|]. apply S; [apply I; exact H|exact H].
Qed.
Lemma remove_facets_perm m olds l : NoDup (map fa_id l) -> NoDup olds -> incl olds l ->
  (forall f, In f olds -> in_square (mh_scale m) (fa_xy (mh_pos m) f) = true) ->
  Permutation l (olds ++ remove_facets m (map fa_id olds) l).
Proof.
  intros N1 N2 I S. apply perm_pick; [apply (NoDup_map_inv' fa_id); exact N1|exact N2|exact I|].
  intros x Hx. rewrite andb_true_iff. split.
  - intros [H _]. apply existsb_exists in H. destruct H as [i [Hi E]]. apply Nat.eqb_eq in E. subst i.
    apply in_map_iff in Hi. destruct Hi as [y [E Hy]]. rewrite <- (nodup_map_inj' fa_id l y x N1 (I y Hy) Hx E). exact Hy.
  - intros H. split; [apply existsb_exists; exists (fa_id x); split; [apply in_map; exact H|apply Nat.eqb_refl]|apply S; exact H].
Qed.
Lemma remove_edges_perm m olds l : NoDup (map ed_id l) -> NoDup olds -> incl olds l ->
  (forall e, In e olds -> in_square front_scale (ed_xy (mh_pos m) e) = true) ->
  Permutation l (olds ++ remove_edges m (map ed_id olds) l).
Proof.
  intros N1 N2 I S. apply perm_pick; [apply (NoDup_map_inv' ed_id); exact N1|exact N2|exact I|].
  intros x Hx. rewrite andb_true_iff. split.
  - intros [H _]. apply existsb_exists in H. destruct H as [i [Hi E]]. apply Nat.eqb_eq in E. subst i.
    apply in_map_iff in Hi. destruct Hi as [y [E Hy]]. rewrite <- (nodup_map_inj' ed_id l y x N1 (I y Hy) Hx E). exact Hy.
  - intros H. split; [apply existsb_exists; exists (ed_id x); split; [apply in_map; exact H|apply Nat.eqb_refl]|apply S; exact H].
Qed.
Lemma remove_facets_new m ids l f : ~ In (fa_id f) ids -> remove_facets m ids (l ++ [f]) = remove_facets m ids l ++ [f].
Proof.
  intros H. unfold remove_facets. rewrite filter_app. f_equal. cbn [filter]. rewrite existsb_notin by exact H. reflexivity.
Qed.
Lemma remove_facets_nil m l : remove_facets m [] l = l.
Proof. unfold remove_facets. apply filter_all. reflexivity. Qed.
Lemma remove_facets_in m ids l f : In f (remove_facets m ids l) -> In f l.
Proof. unfold remove_facets. intros H. apply filter_In in H. apply H. Qed.
Lemma remove_facets_keep m ids l f : In f l -> ~ In (fa_id f) ids -> In f (remove_facets m ids l).
Proof. intros H N. apply filter_In. split; [exact H|]. rewrite existsb_notin by exact N. reflexivity. Qed.
Lemma remove_edges_keep m ids l f : In f l -> ~ In (ed_id f) ids -> In f (remove_edges m ids l).
Proof. intros H N. apply filter_In. split; [exact H|]. rewrite existsb_notin by exact N. reflexivity. Qed.

(* ---------- facts about sound meshes ---------- *)
Lemma facet_in_square m f : addressed m -> fits m -> In f (facets m) -> in_square (mh_scale m) (fa_xy (mh_pos m) f) = true.
Proof. intros A F Hf. apply in_square_fa_xy. intros v Hv. apply F. apply (ad_corner _ A f v Hf Hv). Qed.
Lemma edge_corners m e : conforming m -> addressed m -> In e (all_edges m) -> In (ed_1 e) (mh_verts m) /\ In (ed_2 e) (mh_verts m).
Proof.
  intros C A He. assert (S : In (ed_1 e, ed_2 e) (all_sides m)).
  { apply in_app_or in He. destruct He as [He|He]; [apply (cf_intr _ C e He)|apply (cf_bdry _ C e He)]. }
  apply all_sides_in in S. destruct S as [f [Hf Sf]]. destruct (side_corners f _ _ Sf). split; eapply (ad_corner _ A); eassumption.
Qed.
Lemma edge_in_square m e : conforming m -> addressed m -> fits m -> In e (all_edges m) -> in_square front_scale (ed_xy (mh_pos m) e) = true.
Proof. intros C A F He. destruct (edge_corners m e C A He). apply in_square_ed_xy; apply F; assumption. Qed.

Lemma nodup_ids_app {A} (g : A -> nat) (l l' : list A) : NoDup (map g (l ++ l')) -> NoDup (map g l) /\ NoDup (map g l') /\
  (forall x y, In x l -> In y l' -> g x <> g y).
Proof.
  rewrite map_app. intros N. split; [|split].
  - clear - N. induction (map g l) as [|a k IH]; [constructor|]. cbn in N. inversion N; subst. constructor; [|apply IH; assumption].
    intros X. apply H1. apply in_or_app. auto.
  - exact (nodup_app_r _ _ N).
  - intros x y Hx Hy E. apply (NoDup_app_in _ _ (g x) N); [apply in_map; exact Hx|rewrite E; apply in_map; exact Hy].
Qed.

(* quadrilateral with successive corners v1 v2 v3 v4 *)
Definition rot4 (s : shape) (v1 v2 v3 v4 : nat) : Prop :=
  s = Quad4 v1 v2 v3 v4 \/ s = Quad4 v4 v1 v2 v3 \/ s = Quad4 v3 v4 v1 v2 \/ s = Quad4 v2 v3 v4 v1.
Definition rot3 (s : shape) (v1 v2 v3 : nat) : Prop := s = Tri3 v1 v2 v3 \/ s = Tri3 v3 v1 v2 \/ s = Tri3 v2 v3 v1.

Lemma rot4_sides f a b c d : rot4 (fa_sh f) a b c d -> Permutation (sides f) [(a, b); (b, c); (c, d); (d, a)].
Proof. unfold sides. intros H. destruct H as [H|[H|[H|H]]]; rewrite H; cbn [corners ring_edges path_edges app]; perm. Qed.
Lemma rot3_sides f a b c : rot3 (fa_sh f) a b c -> Permutation (sides f) [(a, b); (b, c); (c, a)].
Proof. unfold sides. intros H. destruct H as [H|[H|H]]; rewrite H; cbn [corners ring_edges path_edges app]; perm. Qed.
Lemma rot4_nodup s a b c d : rot4 s a b c d -> NoDup (corners s) -> a <> b /\ b <> c /\ c <> d /\ d <> a /\ a <> c /\ b <> d.
Proof.
  intros H N. destruct H as [H|[H|[H|H]]]; subst s; cbn [corners] in N; apply nodup4 in N; destruct N as [D1 [D2 [D3 [D4 [D5 D6]]]]]; auto 10.
Qed.
Lemma rot3_nodup s a b c : rot3 s a b c -> NoDup (corners s) -> a <> b /\ b <> c /\ c <> a.
Proof. intros H N. destruct H as [H|[H|H]]; subst s; cbn [corners] in N; apply nodup3 in N; destruct N as [D1 [D2 D3]]; auto. Qed.

Definition ends (e : medge) (a b : nat) : Prop := (ed_1 e = a /\ ed_2 e = b) \/ (ed_2 e = a /\ ed_1 e = b).
Lemma ends_pair e a b : ends e a b -> Permutation (edge_pair e) [(a, b); (b, a)].
Proof. intros [[<- <-]|[<- <-]]; unfold edge_pair; perm. Qed.

(* ---------- the record of one doubled pair ---------- *)
Record pairing (quad4 : bool) (m : mesh) (d : double) (v1 v3 o : nat) : Prop := {
  pg_q : In (db_q d) (mh_quads m);
  pg_n : In (db_n d) (if quad4 then mh_quads m else mh_tris m);
  pg_rq : rot4 (fa_sh (db_q d)) v1 (db_v d) v3 (db_o1 d);
  pg_rn : if quad4 then rot4 (fa_sh (db_n d)) v3 (db_v d) v1 o else rot3 (fa_sh (db_n d)) v3 (db_v d) v1;
  pg_o : if quad4 then db_o2 d = Some o else True;
  pg_e1 : In (db_e1 d) (mh_intr m);
  pg_e2 : In (db_e2 d) (mh_intr m);
  pg_1 : ends (db_e1 d) v1 (db_v d);
  pg_2 : ends (db_e2 d) (db_v d) v3
}.

Definition q_ids (quad4 : bool) (d : double) : list nat := if quad4 then [fa_id (db_q d); fa_id (db_n d)] else [fa_id (db_q d)].
Definition t_ids (quad4 : bool) (d : double) : list nat := if quad4 then [] else [fa_id (db_n d)].
Definition e_ids (d : double) : list nat := [ed_id (db_e1 d); ed_id (db_e2 d)].
Definition new_facet (quad4 : bool) (m : mesh) (d : double) : outcome mesh := if quad4 then new_quad m d else new_tri m d.
Definition drop_one (quad4 : bool) (m : mesh) (d : double) : mesh := drop m (q_ids quad4 d) (t_ids quad4 d) (e_ids d) [db_v d].
Definition step (quad4 : bool) (m : mesh) (d : double) : outcome mesh :=
  obind (new_facet quad4 m d) (fun m1 => Ok (drop_one quad4 m1 d)).
(* the element created by a step *)
Definition created (quad4 : bool) (m : mesh) (d : double) (v1 v3 o : nat) : facet :=
  if quad4 then FA (mh_next m) (Quad4 (db_o1 d) v1 o v3) (mh_col m) true
  else FA (mh_next m) (Tri3 v3 (db_o1 d) v1) (mh_col m) true.

Section Step.
Variable quad4 : bool.
Variable m : mesh.
Variable d : double.
Variables v1 v3 o : nat.
Hypothesis S : sound m.
Hypothesis P : pairing quad4 m d v1 v3 o.
Let q := db_q d.
Let n := db_n d.
Let v2 := db_v d.
Let o1 := db_o1 d.
Let C := sd_conf _ S.
Let A := sd_addr _ S.

Lemma pg_in_q : In q (facets m).
Proof. apply in_or_app. left. exact (pg_q _ _ _ _ _ _ P). Qed.
Lemma pg_in_n : In n (facets m).
Proof. assert (H := pg_n _ _ _ _ _ _ P). apply in_or_app. destruct quad4; auto. Qed.
Lemma pg_sides_n : Permutation (sides n) ((v3, v2) :: (v2, v1) :: if quad4 then [(v1, o); (o, v3)] else [(v1, v3)]).
Proof.
  assert (H := pg_rn _ _ _ _ _ _ P). destruct quad4; [exact (rot4_sides n v3 v2 v1 o H)|exact (rot3_sides n v3 v2 v1 H)].
Qed.
Lemma pg_sides_q : Permutation (sides q) [(v1, v2); (v2, v3); (v3, o1); (o1, v1)].
Proof. apply rot4_sides. exact (pg_rq _ _ _ _ _ _ P). Qed.
Lemma pg_distinct : v1 <> v2 /\ v2 <> v3 /\ v3 <> o1 /\ o1 <> v1 /\ v1 <> v3 /\ v2 <> o1.
Proof. apply (rot4_nodup (fa_sh q)); [exact (pg_rq _ _ _ _ _ _ P)|exact (cf_corners _ C q pg_in_q)]. Qed.
Lemma pg_neq : q <> n.
Proof.
  intros E. apply (side_no_rev q v1 v2 (cf_corners _ C q pg_in_q)).
  - apply (Permutation_in _ (Permutation_sym pg_sides_q)). cbn. auto.
  - rewrite E. apply (Permutation_in _ (Permutation_sym pg_sides_n)). cbn. auto.
Qed.
Lemma pg_ids_neq : fa_id q <> fa_id n.
Proof. intros E. apply pg_neq. exact (id_facet m q n C pg_in_q pg_in_n E). Qed.
Lemma pg_edges_neq : db_e1 d <> db_e2 d.
Proof.
  intros E. destruct pg_distinct as [D1 [D2 [D3 [D4 [D5 D6]]]]].
  assert (E1 := pg_1 _ _ _ _ _ _ P). assert (E2 := pg_2 _ _ _ _ _ _ P). rewrite E in E1. unfold ends in *. fold v2 in E1, E2.
  destruct E1 as [[X1 X2]|[X1 X2]], E2 as [[Y1 Y2]|[Y1 Y2]]; congruence.
Qed.
Lemma pg_second e a b : ends e a b -> a <> b -> (if Nat.eqb (ed_2 e) b then ed_1 e else ed_2 e) = a.
Proof.
  intros [[H1 H2]|[H1 H2]] N; subst; [rewrite Nat.eqb_refl; reflexivity|].
  destruct (Nat.eqb_spec (ed_2 e) (ed_1 e)); [congruence|reflexivity].
Qed.
Lemma pg_first e a b : ends e a b -> a <> b -> (if Nat.eqb (ed_1 e) a then ed_2 e else ed_1 e) = b.
Proof.
  intros [[H1 H2]|[H1 H2]] N; subst; [rewrite Nat.eqb_refl; reflexivity|].
  destruct (Nat.eqb_spec (ed_1 e) (ed_2 e)); [congruence|reflexivity].
Qed.

Let h := created quad4 m d v1 v3 o.
Lemma pg_new : new_facet quad4 m d = Ok (if quad4 then add_quad m o1 v1 o v3 (mh_col m) true else add_tri m v3 o1 v1 (mh_col m) true).
Proof.
  destruct pg_distinct as [D1 [D2 [D3 [D4 [D5 D6]]]]]. assert (HO := pg_o _ _ _ _ _ _ P). unfold new_facet.
  destruct quad4.
  - unfold new_quad. rewrite HO.
    rewrite (pg_second _ _ _ (pg_1 _ _ _ _ _ _ P) D1), (pg_first _ _ _ (pg_2 _ _ _ _ _ _ P) D2). reflexivity.
  - unfold new_tri. assert (R := pg_rq _ _ _ _ _ _ P). subst v2 o1.
    assert (X : forall x y : nat, x <> y -> Nat.eqb x y = false) by (intros x y H; apply Nat.eqb_neq; exact H).
    destruct R as [R|[R|[R|R]]]; rewrite R; cbn [corners vertex_index];
      repeat (rewrite ?Nat.eqb_refl; rewrite ?X by (congruence); cbn [option_map]); reflexivity.
Qed.
Lemma pg_sides_h : Permutation (sides q ++ sides n) (sides h ++ edge_pair (db_e1 d) ++ edge_pair (db_e2 d)).
Proof.
  rewrite pg_sides_q, pg_sides_n, (ends_pair _ _ _ (pg_1 _ _ _ _ _ _ P)), (ends_pair _ _ _ (pg_2 _ _ _ _ _ _ P)).
  unfold h, created, sides. fold v2 o1. destruct quad4; cbn [fa_sh corners ring_edges path_edges app]; perm.
Qed.
Lemma pg_h_area : fa_area (mh_pos m) h == fa_area (mh_pos m) q + fa_area (mh_pos m) n.
Proof.
  rewrite !fa_area_sides. rewrite <- esum_app, (esum_perm _ _ _ pg_sides_h), !esum_app.
  assert (Z := pairs_zero (mh_pos m) [db_e1 d]). assert (Z' := pairs_zero (mh_pos m) [db_e2 d]). cbn [flat_map] in Z, Z'.
  rewrite app_nil_r in Z, Z'. rewrite Z, Z'. ring.
Qed.
Lemma pg_h_pos : 0 < fa_area (mh_pos m) h.
Proof.
  rewrite pg_h_area. assert (X := sd_pos _ S q pg_in_q). assert (Y := sd_pos _ S n pg_in_n). lra.
Qed.
Lemma pg_h_corners : NoDup (corners (fa_sh h)).
Proof.
  destruct pg_distinct as [D1 [D2 [D3 [D4 [D5 D6]]]]]. assert (HP := pg_h_pos). unfold h, created in *. subst o1.
  assert (RN := pg_rn _ _ _ _ _ _ P). assert (CN := cf_corners _ C n pg_in_n).
  destruct quad4; cbn [fa_sh corners].
  - assert (DN := rot4_nodup _ _ _ _ _ RN CN). fold v2 in DN. destruct DN as [N1 [N2 [N3 [N4 [N5 N6]]]]].
    assert (NO : db_o1 d <> o).
    { intros E. rewrite <- E in HP. unfold fa_area in HP. cbn [fa_sh] in HP. unfold quad_area, vcross, vsub in HP. cbn [vx vy] in HP. lra. }
    repeat constructor; cbn [In]; intuition congruence.
  - repeat constructor; cbn [In]; intuition congruence.
Qed.

Definition after : mesh := drop_one quad4 (if quad4 then add_quad m o1 v1 o v3 (mh_col m) true else add_tri m v3 o1 v1 (mh_col m) true) d.
Definition others : list facet := remove_facets m (q_ids quad4 d) (mh_quads m) ++ remove_facets m (t_ids quad4 d) (mh_tris m).

Lemma step_after : step quad4 m d = Ok after.
Proof. unfold step. rewrite pg_new. reflexivity. Qed.
Lemma fresh_q : ~ In (mh_next m) (q_ids quad4 d) /\ ~ In (mh_next m) (t_ids quad4 d).
Proof.
  assert (X := ad_fnext _ A q pg_in_q). assert (Y := ad_fnext _ A n pg_in_n). unfold q_ids, t_ids. fold q n.
  destruct quad4; cbn [In]; split; intuition lia.
Qed.
Lemma after_facets : mh_quads after = remove_facets m (q_ids quad4 d) (mh_quads m) ++ (if quad4 then [h] else []) /\
  mh_tris after = remove_facets m (t_ids quad4 d) (mh_tris m) ++ (if quad4 then [] else [h]).
Proof.
  destruct fresh_q as [F1 F2]. unfold after, drop_one, drop, h, created. fold o1. destruct quad4; cbn [mh_quads mh_tris add_quad add_tri].
  - split; [|rewrite app_nil_r; reflexivity]. exact (remove_facets_new m _ (mh_quads m) (FA (mh_next m) (Quad4 o1 v1 o v3) (mh_col m) true) F1).
  - split; [rewrite app_nil_r; reflexivity|]. exact (remove_facets_new m _ (mh_tris m) (FA (mh_next m) (Tri3 v3 o1 v1) (mh_col m) true) F2).
Qed.
Lemma after_intr : mh_intr after = remove_edges m (e_ids d) (mh_intr m).
Proof. unfold after, drop_one, drop. destruct quad4; reflexivity. Qed.
Lemma after_bdry : mh_bdry after = mh_bdry m.
Proof. unfold after, drop_one, drop. destruct quad4; reflexivity. Qed.
Lemma after_verts : mh_verts after = filter (fun v => negb (existsb (Nat.eqb v) [v2] && in_square (mh_scale m) (mh_pos m v))) (mh_verts m).
Proof. unfold after, drop_one, drop. destruct quad4; reflexivity. Qed.
Lemma after_pos : mh_pos after = mh_pos m /\ mh_scale after = mh_scale m /\ mh_next after = Datatypes.S (mh_next m) /\ mh_col after = mh_col m
  /\ mh_prop after = mh_prop m /\ mh_area after = mh_area m.
Proof. unfold after, drop_one, drop. destruct quad4; repeat split. Qed.

Lemma step_merge : merge m after [q; n] h others [db_e1 d; db_e2 d].
Proof.
  assert (SQ : forall f, In f (facets m) -> in_square (mh_scale m) (fa_xy (mh_pos m) f) = true).
  { intros f Hf. exact (facet_in_square m f A (sd_fits _ S) Hf). }
  assert (NI := nodup_ids_app fa_id _ _ (cf_ids _ C)). destruct NI as [NQ [NT NX]].
  assert (PQ := pg_q _ _ _ _ _ _ P). assert (PN := pg_n _ _ _ _ _ _ P). fold q in PQ. fold n in PN.
  destruct after_facets as [AQ AT]. destruct after_pos as [AP [AS [AN _]]].
  assert (NE := pg_neq). assert (IQ := pg_in_q). assert (IN := pg_in_n).
  constructor.
  - exact AP.
  - exact AS.
  - unfold others, facets, q_ids, t_ids. fold q n. destruct quad4.
    + rewrite remove_facets_nil. rewrite app_assoc. apply Permutation_app_tail. apply (remove_facets_perm m [q; n] (mh_quads m)).
      * exact NQ.
      * constructor; [|constructor; [intros []|constructor]]. intros [E|[]]. exact (NE (eq_sym E)).
      * intros x [<-|[<-|[]]]; assumption.
      * intros x [<-|[<-|[]]]; apply SQ; [exact IQ|exact IN].
    + assert (X1 := remove_facets_perm m [q] (mh_quads m) NQ ltac:(repeat constructor; intros []) ltac:(intros x [<-|[]]; assumption)
                     ltac:(intros x [<-|[]]; apply SQ; exact IQ)).
      assert (X2 := remove_facets_perm m [n] (mh_tris m) NT ltac:(repeat constructor; intros []) ltac:(intros x [<-|[]]; assumption)
                     ltac:(intros x [<-|[]]; apply SQ; exact IN)).
      rewrite X1 at 1. rewrite X2 at 1. cbn [map app]. constructor. symmetry. apply Permutation_middle.
  - unfold others, facets. rewrite AQ, AT. destruct quad4; rewrite ?app_nil_r.
    + rewrite <- app_assoc. symmetry. apply Permutation_middle.
    + rewrite app_assoc. symmetry. apply Permutation_cons_append.
  - cbn [flat_map]. rewrite !app_nil_r. exact pg_sides_h.
  - rewrite after_intr, <- map_app. apply Permutation_map. unfold e_ids. apply (remove_edges_perm m [db_e1 d; db_e2 d] (mh_intr m)).
    + assert (N := nodup_ids_app ed_id _ _ (cf_eids _ C)). apply N.
    + constructor; [|constructor; [intros []|constructor]]. intros [E|[]]. exact (pg_edges_neq (eq_sym E)).
    + intros x [<-|[<-|[]]]; [exact (pg_e1 _ _ _ _ _ _ P)|exact (pg_e2 _ _ _ _ _ _ P)].
    + intros x [<-|[<-|[]]]; apply (edge_in_square m _ C A (sd_fits _ S)); apply in_or_app; left; [exact (pg_e1 _ _ _ _ _ _ P)|exact (pg_e2 _ _ _ _ _ _ P)].
  - rewrite after_bdry. reflexivity.
  - unfold h, created. destruct quad4; cbn; lia.
  - exact pg_h_corners.
  - intros f Hf. rewrite AQ in Hf. apply in_app_or in Hf. destruct Hf as [Hf|Hf]; [apply (cf_quads _ C); exact (remove_facets_in _ _ _ _ Hf)|].
    unfold h, created in Hf. destruct quad4; [destruct Hf as [<-|[]]; cbn; eauto 10|destruct Hf].
  - intros f Hf. rewrite AT in Hf. apply in_app_or in Hf. destruct Hf as [Hf|Hf]; [apply (cf_tris _ C); exact (remove_facets_in _ _ _ _ Hf)|].
    unfold h, created in Hf. destruct quad4; [destruct Hf|destruct Hf as [<-|[]]; cbn; eauto 10].
Qed.

(* only q and n touch the vertex between the two edges *)
Lemma pg_fan f : In f (facets m) -> In v2 (corners (fa_sh f)) -> f = q \/ f = n.
Proof.
  apply (fan_two m q n v1 v2 v3 C (sd_fans _ S) pg_in_q pg_in_n);
    first [apply (Permutation_in _ (Permutation_sym pg_sides_q)); cbn; now auto|apply (Permutation_in _ (Permutation_sym pg_sides_n)); cbn; now auto].
Qed.
Lemma pg_h_old v : In v (corners (fa_sh h)) -> v <> v2 /\ In v (mh_verts m).
Proof.
  intros Hv. split.
  - destruct pg_distinct as [D1 [D2 [D3 [D4 [D5 D6]]]]]. assert (RN := pg_rn _ _ _ _ _ _ P). assert (CN := cf_corners _ C n pg_in_n).
    unfold h, created in Hv. fold o1 in Hv. destruct quad4; cbn [fa_sh corners In] in Hv.
    + assert (DN := rot4_nodup _ _ _ _ _ RN CN). fold v2 in DN. destruct DN as [N1 [N2 [N3 [N4 [N5 N6]]]]]. intuition congruence.
    + intuition congruence.
  - destruct (side_corner_next h v Hv) as [b Sb].
    assert (X := mg_h_side _ _ _ _ _ _ step_merge _ Sb). apply in_flat_map in X. destruct X as [f [Hf Sf]].
    apply (ad_corner _ A f); [exact (mg_old_in _ _ _ _ _ _ step_merge f Hf)|apply (side_corners f v b Sf)].
Qed.
Lemma step_sound : sound after.
Proof.
  assert (G := step_merge). destruct after_pos as [AP [AS [AN _]]].
  constructor.
  - exact (merge_conforming _ _ _ _ _ _ G C A).
  - apply (merge_addressed _ _ _ _ _ _ G A).
    + rewrite after_verts. apply NoDup_filter. exact (ad_verts _ A).
    + intros v Hv. rewrite after_verts in Hv. apply filter_In in Hv. apply Hv.
    + intros f v Hf Hv. rewrite after_verts. apply filter_In.
      assert (X : v <> v2 /\ In v (mh_verts m)).
      { apply (Permutation_in _ (mg_facets' _ _ _ _ _ _ G)) in Hf. destruct Hf as [<-|Hf]; [exact (pg_h_old v Hv)|].
        assert (Hf' := mg_rest_in _ _ _ _ _ _ G f Hf).
        split; [|exact (ad_corner _ A f v Hf' Hv)]. intros E. subst v.
        refine (olds_rest _ _ _ _ _ _ G C f _ Hf). destruct (pg_fan f Hf' Hv) as [E|E]; rewrite E; cbn; auto. }
      destruct X as [X1 X2]. split; [exact X2|]. cbn [existsb]. destruct (Nat.eqb_spec v v2); [contradiction|reflexivity].
    + lia.
    + rewrite AN. unfold h, created. destruct quad4; cbn; lia.
  - intros v Hv. rewrite after_verts in Hv. apply filter_In in Hv. rewrite AS, AP. apply (sd_fits _ S). apply Hv.
  - exact (merge_fans _ _ _ _ _ _ G C (sd_fans _ S)).
  - exact (merge_positive _ _ _ _ _ _ G (sd_pos _ S) ltac:(discriminate)).
  - apply (merge_unset _ _ _ _ _ _ G C (sd_unset _ S)).
    + intros f i Hf. assert (L := ad_fnext _ A f (mg_rest_in _ _ _ _ _ _ G f Hf)).
      unfold after, drop_one, drop. destruct quad4; cbn [mh_nbr add_quad add_tri]; destruct (Nat.eqb_spec (fa_id f) (mh_next m)); try lia; reflexivity.
    + intros i. unfold after, drop_one, drop, h, created. destruct quad4; cbn [mh_nbr add_quad add_tri fa_id]; rewrite Nat.eqb_refl; reflexivity.
Qed.
(* the removed vertex is not a boundary vertex *)
Lemma pg_inner e : In e (mh_bdry m) -> ed_1 e <> v2 /\ ed_2 e <> v2.
Proof.
  intros He. destruct (cf_bdry _ C e He) as [S1 S2].
  assert (Y : In (ed_1 e, ed_2 e) (all_sides after)).
  { assert (X := cf_bdry _ (sd_conf _ step_sound) e). rewrite after_bdry in X. apply X. exact He. }
  apply all_sides_in in Y. destruct Y as [f [Hf Sf]]. destruct (side_corners f _ _ Sf) as [C1 C2].
  assert (V := ad_corner _ (sd_addr _ step_sound) f). rewrite after_verts in V.
  assert (X : forall v, In v (corners (fa_sh f)) -> v <> v2).
  { intros v Hv E. subst v. specialize (V v2 Hf Hv). apply filter_In in V. destruct V as [V1 V2]. cbn [existsb] in V2.
    rewrite Nat.eqb_refl in V2. cbn [orb andb negb] in V2. rewrite (proj1 (sd_fits _ S v2 V1)) in V2. discriminate. }
  split; apply X; assumption.
Qed.
End Step.
