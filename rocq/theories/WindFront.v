(* Winding numbers of the initial front, of the advancing front and of finished
   meshes. *)
From Coq Require Import Lqa Lia Permutation.
From Verif Require Import Base Chain GeomModel GeomSpec UtilModel BdryModel BdrySpec BdryProofs FacetModel AdvanceModel AdvanceSpec AdvanceProofs AdvanceInv
  FrontModel FrontSpec FrontProofs RefineProofs InitProofs MeshModel WindSpec WindProofs.
Open Scope Q_scope.

(* ---- chains on a line ---- *)
Lemma last_in {A} (l : list A) x : l <> [] -> In (last l x) l.
Proof.
  induction l as [|a l IH]; intros N; [congruence|]. destruct l as [|b l]; [left; reflexivity|].
  right. apply IH. discriminate.
Qed.
Lemma route_crossing o pos p q (t : nat -> Q) es : forall a b, route a b es ->
  (forall v, v = a \/ In v (map be_v2 es) -> veq (pos v) (vadd p (vscale (t v) (vsub q p)))) ->
  esum (at_pos pos o) (ends es) == crossing o (pos a) (pos b).
Proof.
  induction es as [|e es IH]; intros a b; cbn [route]; [intros <- _; cbn; symmetry; apply crossing_self|].
  intros [<- R] H. cbn [ends map esum].
  rewrite (IH _ _ R) by (intros v [-> |Hv]; apply H; right; [left; reflexivity|right; exact Hv]).
  symmetry. destruct (Nat.eq_dec b (be_v2 e)) as [-> |N].
  - rewrite crossing_self. unfold at_pos. ring.
  - refine (crossing_line o p q (pos (be_v1 e)) (pos (be_v2 e)) (pos b) _ _ _ (H _ (or_introl eq_refl)) (H _ (or_intror (or_introl eq_refl))) (H b _)).
    right. right. destruct es as [|f es]; [cbn in R; congruence|].
    rewrite <- (route_last _ _ _ R) by discriminate. apply last_in. discriminate.
Qed.

Lemma chain_crossing o pos f pts cs p q : chain_of pos f pts cs ->
  veq (pos (fe_1 f)) p -> veq (pos (fe_2 f)) q -> Forall (on_line p q) pts ->
  esum (at_pos pos o) (ends cs) == crossing o (pos (fe_1 f)) (pos (fe_2 f)).
Proof.
  intros (R & P & L & _) A B O.
  assert (O' : Forall (fun v => on_line p q (pos v)) (fe_1 f :: fe_2 f :: map be_v2 (removelast cs))).
  { rewrite <- P in O. constructor; [exists 0; exact (veq_trans _ _ _ A (line_start p q))|].
    constructor; [exists 1; exact (veq_trans _ _ _ B (line_end p q))|].
    apply Forall_forall. intros v Hv. apply in_map_iff in Hv. destruct Hv as (c & <- & Hc).
    rewrite Forall_forall in O. apply O. apply in_map_iff. exists c. auto. }
  destruct (on_line_choice pos p q _ O') as (t & T).
  apply (route_crossing o pos p q t cs _ _ R). intros v [-> |Hv]; apply T; [left; reflexivity|].
  destruct (route_inner _ _ _ _ R Hv) as [-> |I]; [right; left; reflexivity|right; right; exact I].
Qed.

Lemma prepared_crossing o sub d loose col : indices_ok d -> coords_in front_scale d ->
  (forall a b, Forall (on_line a b) (sub a b)) -> proper d ->
  let st := prepared sub d loose col in
  esum (at_pos (ms_pos st) o) (ends (ms_front st)) ==
  sumQ (map (fun f => crossing o (posn d (fe_1 f)) (posn d (fe_2 f))) (filter (fun f => negb (fe_fix f)) (fd_edges d))).
Proof.
  intros OK SQ L PR st. destruct (refined_spec sub d OK SQ) as ((css & E & F) & PO & _ & _ & _ & VL & _).
  unfold st. rewrite prepared_front, renumber_ends.
  rewrite (esum_ext _ (at_pos (rs_pos (refined_state sub d)) o)).
  2:{ intros a b H. apply in_map_iff in H. destruct H as (c & X & Hc). injection X as <- <-. apply filter_In in Hc.
      destruct (VL PR c (proj1 Hc)) as (A & B & _). unfold at_pos. rewrite (prepared_pos sub d loose col _ A), (prepared_pos sub d loose col _ B). reflexivity. }
  rewrite E, (loosened_chains _ _ _ _ _ F).
  - clear E F. assert (X : forall fs, (forall f, In f fs -> In f (fd_edges d)) ->
      esum (at_pos (rs_pos (refined_state sub d)) o) (map fe_ends fs) ==
      sumQ (map (fun f => crossing o (posn d (fe_1 f)) (posn d (fe_2 f))) fs)).
    { induction fs as [|f fs IH]; intros H; [reflexivity|]. cbn [map esum fe_ends sumQ].
      rewrite IH by (intros; apply H; right; assumption). destruct (OK f (H f (or_introl eq_refl))) as [O1 O2].
      unfold at_pos. rewrite (PO _ O1), (PO _ O2). reflexivity. }
    apply X. intros f Hf. apply filter_In in Hf. apply Hf.
  - intros f cs Hf HC. destruct (OK f Hf) as [O1 O2].
    apply chain_crossing with (pts := edge_inner sub d f) (p := posn d (fe_1 f)) (q := posn d (fe_2 f)); [exact HC| | |].
    + rewrite (PO _ O1). apply veq_refl.
    + rewrite (PO _ O2). apply veq_refl.
    + unfold edge_inner. destruct (fe_twin f); [constructor|apply L].
Qed.
Lemma matched_crossing o vs fs ws : Forall2 (matches vs) fs ws ->
  sumQ (map (fun f => crossing o (nth (fe_1 f) vs (V2 0 0)) (nth (fe_2 f) vs (V2 0 0))) fs) ==
  winding o (map fst ws).
Proof.
  induction 1 as [|f w fs ws ((y & A1 & A2) & (z & B1 & B2) & _) _ IH]; [reflexivity|]. unfold winding in *. cbn [map sumQ]. rewrite IH.
  rewrite (nth_error_nth _ _ _ A1), (nth_error_nth _ _ _ B1). apply veqb_true in A2, B2.
  destruct w as [[wa wb] wc]. cbn [fst snd] in *. cbn [esum]. rewrite (crossing_eq o wa wb y z A2 B2). reflexivity.
Qed.

(* the initial front winds around every point as the domain boundary does *)
Lemma initial_winding o bounds fixed meshes sub loose col :
  (forall e, In e bounds -> de_fix e = false) -> (forall e, In e fixed -> de_fix e = true) ->
  (forall e, In e (concat meshes) -> de_fix e = false) ->
  (forall e, In e (bounds ++ fixed ++ concat meshes) -> veqb (de_a e) (de_b e) = false /\
     in_square front_scale (de_a e) = true /\ in_square front_scale (de_b e) = true) ->
  (forall a b, Forall (on_line a b) (sub a b)) ->
  let st := prepared sub (collect_front_edges bounds fixed meshes) loose col in
  esum (at_pos (ms_pos st) o) (ends (ms_front st)) == winding o (map fst (flat_map (wanted meshes) bounds)).
Proof.
  intros HB HF HM HE HS st.
  set (d := collect_front_edges bounds fixed meshes) in *.
  assert (OK : indices_ok d) by apply collect_indices.
  assert (SQ : coords_in front_scale d).
  { apply collect_coords; [intros e He; apply (HE e He)|]. intros e n Hn. exact (proj1 (neighbours_in _ _ _ Hn)). }
  assert (PR : proper d) by (apply collect_proper; intros e He; apply (HE e He)).
  unfold st. rewrite prepared_crossing by assumption.
  unfold posn. apply matched_crossing. apply collect_loose; assumption.
Qed.
