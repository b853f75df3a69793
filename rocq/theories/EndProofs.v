(* From the parameter file to the mesh: proofs for EndProps. *)
From Coq Require Import Lqa Lia Permutation.
From Verif Require Import Base Chain GeomModel GeomSpec GeomProofs FacetModel UtilModel BdryModel BdrySpec BdryProofs AdvanceModel AdvanceSpec AdvanceProofs AdvanceInv
  LoopModel LoopProps FrontModel FrontSpec FrontProofs RefineProofs InitProofs MeshModel MeshSpec MeshProofs QRefineSpec SmoothProofs CleanSpec WindSpec WindProofs WindFront WindMesh WindMeshProps WindInsideProps PolySpec PolyProps
  ClearSpec ClearStart ClearDomain FinModel FinProps WindProps DomInModel DomInSpec DomInProofs DomInBuild EndSpec.
From Verif Require Import AppModel.
Open Scope Q_scope.

(* ---------- every front edge is a piece of a boundary edge and has its colour ---------- *)
Lemma front_pieces bounds fixed sub loose col : simple_curves (map de_ends bounds) ->
  (forall e, In e bounds -> de_fix e = false) -> (forall e, In e fixed -> de_fix e = true) ->
  (forall e, In e (bounds ++ fixed) -> veqb (de_a e) (de_b e) = false /\
     in_square front_scale (de_a e) = true /\ in_square front_scale (de_b e) = true) ->
  (forall a b, ~ veq a b -> strictly_inside a b (sub a b)) ->
  let st := prepared sub (collect_front_edges bounds fixed []) loose col in
  (bounds <> [] -> ms_front st <> []) /\
  forall e, In e (ms_front st) -> exists b l h, In b bounds /\ be_col e = de_col b /\ 0 <= l /\ l < h /\ h <= 1 /\
    veq (ms_pos st (be_v1 e)) (on_seg (de_a b) (de_b b) l) /\ veq (ms_pos st (be_v2 e)) (on_seg (de_a b) (de_b b) h).
Proof.
  intros SC HB HF HE HS st. set (d := collect_front_edges bounds fixed []) in *.
  assert (OK : indices_ok d) by apply collect_indices.
  assert (HE' : forall e, In e (bounds ++ fixed ++ concat []) -> veqb (de_a e) (de_b e) = false /\ in_square front_scale (de_a e) = true /\ in_square front_scale (de_b e) = true).
  { intros e. cbn [concat]. rewrite app_nil_r. apply HE. }
  assert (SQ : coords_in front_scale d).
  { apply collect_coords; [intros e He; apply (HE' e He)|]. intros e n Hn. exact (proj1 (neighbours_in _ _ _ Hn)). }
  assert (PR : proper d) by (apply collect_proper; intros e He; apply (HE' e He)).
  destruct (refined_spec sub d OK SQ) as ((css & E & CH) & P & PV & _ & _ & VB & _). specialize (VB PR).
  set (rst := refined_state sub d) in *.
  destruct (loosened_concat _ _ _ _ CH) as (css' & LE & CH').
  assert (M := collect_loose bounds fixed [] HB HF ltac:(intros e [])). fold d in M.
  assert (WN : flat_map (wanted []) bounds = map (fun e => (de_ends e, de_col e)) bounds).
  { clear. induction bounds as [|e l IH]; [reflexivity|]. cbn [flat_map map]. rewrite <- IH. reflexivity. }
  rewrite WN in M. assert (PROPER := sc_proper _ SC).
  assert (C2 : Forall2 (fun b cs => pieces (rs_pos rst) (de_a b) (de_b b) 0 cs 1 /\ forall c, In c cs -> be_col c = de_col b) bounds css').
  { clear - M CH' P PROPER HS. clearbody rst. clearbody d. revert CH' PROPER. generalize css'. clear css'. remember (map (fun e => (de_ends e, de_col e)) bounds) as wl eqn:EW. revert bounds EW.
    induction M as [|f w fs wl (S1 & S2 & S3) M IH]; intros bounds EW css' CH' PROPER; inversion CH' as [|? cs ? ? C CH'']; subst css'.
    - destruct bounds; [constructor|discriminate].
    - destruct bounds as [|b bounds]; [discriminate|]. cbn [map] in EW. injection EW as EW EL. subst w. cbn [map] in PROPER. constructor.
      + destruct (stands_pos d _ _ _ P S1) as [V1 L1]. destruct (stands_pos d _ _ _ P S2) as [V2 L2]. cbn [fst snd de_ends] in *. split.
        * apply (chain_of_chain _ (fun v => (v < length (fd_verts d))%nat) (de_ends b) f (edge_inner sub d f) cs); try assumption; [apply PROPER; left; reflexivity|].
          unfold edge_inner. destruct (fe_twin f); [exists []; split; [cbn; lra|constructor]|].
          apply (strictly_any (posn d (fe_1 f)) (posn d (fe_2 f))).
          -- rewrite <- P by exact L1. exact V1.
          -- rewrite <- P by exact L2. exact V2.
          -- apply HS. rewrite <- !P by assumption. intros Q. apply (PROPER (de_ends b) (or_introl eq_refl)).
             apply (veq_trans _ _ _ (veq_sym _ _ V1)). apply (veq_trans _ _ _ Q V2).
        * intros c I. destruct C as (_ & _ & _ & K). rewrite Forall_forall in K. rewrite (proj1 (K c I)). exact S3.
      + apply IH; [exact EL|exact CH''|]. intros z I. apply PROPER. right. exact I. }
  assert (FR : ms_front st = renumber 0 (concat css')).
  { unfold st. rewrite (prepared_front sub d loose col). fold rst. rewrite E, LE. reflexivity. }
  assert (PP : forall v, (v < rs_nv rst)%nat -> ms_pos st v = rs_pos rst v) by (intros v L; unfold st; apply prepared_pos; exact L).
  split.
  { intros NB. rewrite FR. destruct C2 as [|b cs bs xs [H _] F]; [contradiction|]. destruct cs as [|c cs]; [destruct H|]. discriminate. }
  intros e I. rewrite FR in I. apply renumber_in in I. destruct I as (g & I & Q). unfold payload in Q. injection Q as Q1 Q2 Q3 _.
  assert (NV : (be_v1 g < rs_nv rst)%nat /\ (be_v2 g < rs_nv rst)%nat).
  { assert (X := VB g). destruct X as (X1 & X2 & _); [|split; assumption]. rewrite E. rewrite <- LE in I. apply filter_In in I. apply I. }
  rewrite Q1, Q2, Q3, !PP by apply NV.
  apply in_concat in I. destruct I as (cs & J & K).
  assert (X : exists b, In b bounds /\ pieces (rs_pos rst) (de_a b) (de_b b) 0 cs 1 /\ forall c, In c cs -> be_col c = de_col b).
  { clear - C2 J. clearbody rst. clear d. induction C2 as [|b x bs xs H F IH]; [destruct J|]. destruct J as [->|J]; [exists b; split; [left; reflexivity|exact H]|].
    destruct (IH J) as (y & Y1 & Y2). exists y. split; [right; exact Y1|exact Y2]. }
  destruct X as (b & B1 & B2 & B3). destruct (pieces_in _ _ _ _ _ _ _ B2 K) as (l & h & L1 & L2 & L3 & A1 & A2).
  exists b, l, h. split; [exact B1|]. split; [exact (B3 g K)|]. split; [exact L1|]. split; [exact L2|]. split; [exact L3|]. split; assumption.
Qed.

(* ---------- the region of a mesh with the boundary of the domain ---------- *)
Lemma bare_ends twin l b : map bare l = map (fin_bdry twin) b -> map ends_of l = BdrySpec.ends b.
Proof.
  revert b. induction l as [|e l IH]; intros [|f b] E; try discriminate; [reflexivity|]. cbn [map] in E. injection E as _ X Y _ _ _ E2.
  unfold BdrySpec.ends in IH |- *. cbn [map]. rewrite (IH b E2). unfold ends_of. rewrite X, Y. reflexivity.
Qed.
Lemma made_region bs bounds fixed sub loose col twin m :
  map de_ends bounds = domain_segments bs -> (forall e, In e bounds -> de_fix e = false) -> (forall e, In e fixed -> de_fix e = true) ->
  (forall e, In e (bounds ++ fixed) -> veqb (de_a e) (de_b e) = false /\
     in_square front_scale (de_a e) = true /\ in_square front_scale (de_b e) = true) ->
  (forall a b, Forall (on_line a b) (sub a b)) ->
  let st := prepared sub (collect_front_edges bounds fixed []) loose col in
  map bare (mh_bdry m) = map (fin_bdry twin) (ms_front st) -> (forall e, In e (ms_front st) -> mh_pos m (be_v1 e) = ms_pos st (be_v1 e) /\ mh_pos m (be_v2 e) = ms_pos st (be_v2 e)) ->
  forall p, mesh_region m p == winding p (domain_segments bs).
Proof.
  intros E HB HF HE HL st BD PO p.
  assert (HE' : forall e, In e (bounds ++ fixed ++ concat []) -> veqb (de_a e) (de_b e) = false /\ in_square front_scale (de_a e) = true /\ in_square front_scale (de_b e) = true).
  { intros e. cbn [concat]. rewrite app_nil_r. apply HE. }
  assert (IW := initial_winding p bounds fixed [] sub loose col HB HF ltac:(intros e []) HE' HL). cbv zeta in IW. fold st in IW.
  rewrite region_ends, (bare_ends twin _ _ BD).
  assert (D := domain_region_alone bounds p). rewrite E in D. unfold domain_region in D. rewrite <- D, <- IW.
  apply esum_ext. intros a b I. unfold BdrySpec.ends in I. apply in_map_iff in I. destruct I as (e & X & I). injection X as <- <-.
  destruct (PO e I) as [P1 P2]. unfold at_pos. rewrite P1, P2. reflexivity.
Qed.

(* ---------- the edges that the boundaries of the file give ---------- *)
Lemma file_segments store bds : map de_ends (file_edges store bds) = domain_segments (domain_of store bds).
Proof.
  unfold file_edges, domain_segments, domain_of. induction bds as [|b l IH]; [reflexivity|]. cbn [flat_map map]. rewrite map_app, IH, map_map. reflexivity.
Qed.
Lemma file_fix store bds e : In e (file_edges store bds) -> de_fix e = false.
Proof. unfold file_edges. intros I. apply in_flat_map in I. destruct I as (b & _ & I). apply in_map_iff in I. destruct I as (x & <- & _). reflexivity. Qed.
Lemma same_in es fs a b : same_points es fs -> In (a, b) es -> exists c d, In (c, d) fs /\ veq a c /\ veq b d.
Proof.
  intros F. induction F as [|x [c d] es fs [H1 H2] F IH]; intros I; [destruct I|]. destruct I as [->|I].
  - exists c, d. split; [left; reflexivity|]. split; assumption.
  - destruct (IH I) as (c' & d' & J & K). exists c', d'. split; [right; exact J|exact K].
Qed.
Lemma side_of store bt b l e : around_shape store bt b l -> In e (el_edges b) ->
  exists c d, In (c, d) (ring_edges l) /\
    ((veq (store_pos store (be_v1 e)) c /\ veq (store_pos store (be_v2 e)) d) \/ (veq (store_pos store (be_v1 e)) d /\ veq (store_pos store (be_v2 e)) c)).
Proof.
  intros A I. destruct (ar_points _ _ _ _ A) as (fwd & S).
  assert (J : In (store_pos store (be_v1 e), store_pos store (be_v2 e)) (created store b)) by (apply in_map_iff; exists e; split; [reflexivity|exact I]).
  destruct (same_in _ _ _ _ S J) as (c & d & K & V1 & V2). destruct fwd; [exists c, d; split; [exact K|left; split; assumption]|].
  unfold reverse_edges in K. apply in_rev in K. apply in_map_iff in K. destruct K as ([x y] & X & K). unfold swap_edge in X. cbn in X. injection X as <- <-.
  exists x, y. split; [exact K|right; split; assumption].
Qed.
Lemma file_side store bds css e : Forall2 (fits_def store) bds css -> In e (file_edges store bds) ->
  exists cs c d, In cs css /\ In (de_col e) (colours cs) /\ In (c, d) (ring_edges (places cs)) /\
    ((veq (de_a e) c /\ veq (de_b e) d) \/ (veq (de_a e) d /\ veq (de_b e) c)).
Proof.
  intros F. unfold file_edges. induction F as [|b cs bds css [H1 H2] F IH]; intros I; [destruct I|]. cbn [flat_map] in I. apply in_app_or in I. destruct I as [I|I].
  - apply in_map_iff in I. destruct I as (x & <- & I). destruct (side_of _ _ _ _ _ H1 I) as (c & d & J & K). exists cs, c, d.
    split; [left; reflexivity|]. split; [apply (H2 x I)|]. split; [exact J|exact K].
  - destruct (IH I) as (cs' & c & d & J & K). exists cs', c, d. split; [right; exact J|exact K].
Qed.
Lemma in_square_eq s p q : veq p q -> in_square s p = in_square s q.
Proof. intros [E1 E2]. unfold in_square, Qleb. cbv zeta. rewrite E1, E2. reflexivity. Qed.
Lemma ring_ends {A} (l : list A) a b : In (a, b) (ring_edges l) -> In a l /\ In b l.
Proof.
  destruct l as [|x l]; [intros []|]. assert (G : forall l x, In (a, b) (path_edges x l) -> In a (x :: l) /\ In b (x :: l)).
  { clear. induction l as [|z l IH]; intros x I; [destruct I|]. destruct I as [E|I]; [injection E as <- <-; split; [left|right; left]; reflexivity|].
    destruct (IH z I) as [H1 H2]. split; right; assumption. }
  unfold ring_edges. intros I. destruct (G (l ++ [x]) x I) as [H1 H2]. assert (X : forall z, In z (x :: l ++ [x]) -> In z (x :: l)).
  { intros z [->|J]; [left; reflexivity|]. apply in_app_or in J. destruct J as [J|[->|[]]]; [right; exact J|left; reflexivity]. }
  split; apply X; assumption.
Qed.

(* ---------- the area of the boundaries ---------- *)
Lemma same_vcross es fs : same_points es fs -> esum vcross es == esum vcross fs.
Proof.
  intros F. induction F as [|[a b] [c d] es fs [[E1 E2] [E3 E4]] F IH]; [reflexivity|]. cbn [esum fst snd] in *. rewrite IH. unfold vcross. rewrite E1, E2, E3, E4. reflexivity.
Qed.
Lemma reverse_vcross es : esum vcross (reverse_edges es) == - esum vcross es.
Proof.
  unfold reverse_edges. assert (P : Permutation (rev (map swap_edge es)) (map swap_edge es)) by (symmetry; apply Permutation_rev). rewrite (esum_perm _ _ _ P). clear P.
  induction es as [|[a b] es IH]; [reflexivity|]. cbn [map esum swap_edge fst snd]. rewrite IH. unfold vcross. ring.
Qed.
Lemma around_area store bt b l : around_shape store bt b l -> (1 # 2) * esum vcross (created store b) == el_area b.
Proof.
  intros A. rewrite (ar_area _ _ _ _ A). destruct (ar_points _ _ _ _ A) as (fwd & S). assert (E := same_vcross _ _ S).
  assert (E1 : esum vcross (created store b) == esum vcross (ring_edges l) \/ esum vcross (created store b) == - esum vcross (ring_edges l)).
  { destruct fwd; [left; exact E|right]. rewrite E. apply reverse_vcross. }
  destruct (ar_simple _ _ _ _ A) as (k & K & _ & SG). cbn [bd_edges bd_type] in K, SG. rewrite K in *. unfold signed_area in *. clear - E1 SG.
  set (x := esum vcross (ring_edges k)) in *. set (y := esum vcross (ring_edges l)) in *. clearbody x y.
  assert (H : Qabs.Qabs ((1 # 2) * y) == (1 # 2) * x \/ Qabs.Qabs ((1 # 2) * y) == - ((1 # 2) * x)).
  { destruct (Qlt_le_dec y 0) as [L|L]; [rewrite Qabs.Qabs_neg by lra|rewrite Qabs.Qabs_pos by lra]; destruct E1 as [E1|E1]; [right|left|left|right]; lra. }
  assert (N := Qabs.Qabs_nonneg ((1 # 2) * y)). destruct bt, H as [H|H]; rewrite H in *; lra.
Qed.
Lemma domain_half store bds css : Forall2 (fits_def store) bds css -> (1 # 2) * esum vcross (domain_segments (domain_of store bds)) == domain_area (domain_of store bds).
Proof.
  intros F. unfold domain_area. assert (G : forall l a, fold_left (fun x (b : boundary) => x + bd_area b) l a == a + fold_left (fun x b => x + bd_area b) l 0).
  { clear. induction l as [|b l IH]; intros a; cbn [fold_left]; [ring|]. rewrite (IH (a + bd_area b)), (IH (0 + bd_area b)). ring. }
  induction F as [|b cs bds css [H _] F IH]; [reflexivity|]. cbn [domain_of map domain_segments flat_map fold_left]. fold (domain_of store bds). fold (domain_segments (domain_of store bds)).
  rewrite esum_app, G, <- IH. cbn [bd_edges bd_area]. rewrite <- (around_area _ _ _ _ H). ring.
Qed.

(* ---------- a mesh with the region of the file ---------- *)
Lemma fills_region m (D : list (vec2 * vec2)) outer holes : conforming m -> simple_elements m -> (forall p, mesh_region m p == winding p D) ->
  (forall p, (winding p D == 1 /\ ~ winding p (ring_edges outer) == 0 /\ forall l, In l holes -> winding p (ring_edges l) == 0) \/
     (winding p D == 0 /\ (winding p (ring_edges outer) == 0 \/ exists l, In l holes /\ ~ winding p (ring_edges l) == 0))) ->
  fills m outer holes.
Proof.
  intros C SE R W. assert (SR : simple_region (mesh_region m)).
  { intros p. rewrite (R p). destruct (W p) as [(X & _)|(X & _)]; rewrite X; lra. }
  destruct (C50_exact m C SE SR) as (T1 & T2 & T3). constructor.
  - exact T1.
  - intros p [P1 P2]. apply T2. rewrite (R p). destruct (W p) as [(X & _)|(_ & [X|(l & X1 & X2)])]; [rewrite X; lra|contradiction|destruct (X2 (P2 l X1))].
  - intros p f I J. destruct (W p) as [(_ & X)|(X & _)]; [exact X|]. exfalso. refine (T3 p _ f I J). rewrite (R p), X. lra.
Qed.
