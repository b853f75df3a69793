(* Proofs about the initial front after the refinement. *)
From Coq Require Import Lia Lqa Permutation.
From Verif Require Import Base Chain GeomModel FacetModel UtilModel BdryModel BdrySpec BdryProofs
  AdvanceModel AdvanceSpec AdvanceProofs FrontModel FrontSpec FrontProofs RefineProofs.
Open Scope Q_scope.

Lemma init_edges_ids es : forall k, map be_id (init_edges k es) = seq k (length es).
Proof. induction es as [|e es IH]; intros k; cbn; [|rewrite IH]; reflexivity. Qed.
Definition from_fe (f : fedge) (e : bedge) : Prop :=
  be_v1 e = fe_1 f /\ be_v2 e = fe_2 f /\ be_col e = fe_col f /\ be_prop e = front_prop (fe_fix f).
Lemma init_edges_from es : forall k, Forall2 from_fe es (init_edges k es).
Proof. induction es as [|e es IH]; intros k; cbn; constructor; [repeat split|apply IH]. Qed.
Lemma from_in es bs e : Forall2 from_fe es bs -> In e bs -> exists f, In f es /\ from_fe f e.
Proof.
  induction 1 as [|f b es bs F _ IH]; intros H; [destruct H|]. destruct H as [<-|H].
  - exists f. split; [left; reflexivity|exact F].
  - destruct (IH H) as (g & A & B). exists g. split; [right; exact A|exact B].
Qed.
Lemma twin_ids_ge es : forall k i, In i (twin_ids k es) -> (k <= i)%nat.
Proof.
  induction es as [|e es IH]; intros k i H; [destruct H|]. cbn in H. destruct (fe_twin e); [destruct H as [<-|H]; [lia|]|]; specialize (IH (S k) i H); lia.
Qed.
Lemma init_twins es : forall k tw, (forall i, (k <= i)%nat -> In i tw <-> In i (twin_ids k es)) ->
  Forall2 (fun f e => is_twin tw e = fe_twin f) es (init_edges k es).
Proof.
  induction es as [|f es IH]; intros k tw H; cbn [init_edges]; constructor.
  - unfold is_twin. cbn [be_id]. destruct (fe_twin f) eqn:T.
    + apply existsb_exists. exists k. split; [|apply Nat.eqb_refl]. apply H; [lia|]. cbn. rewrite T. left. reflexivity.
    + apply Bool.not_true_iff_false. intros X. apply existsb_exists in X. destruct X as (i & Hi & E). apply Nat.eqb_eq in E. subst i.
      apply H in Hi; [|lia]. cbn in Hi. rewrite T in Hi. apply twin_ids_ge in Hi. lia.
  - apply IH. intros i Hi. rewrite (H i) by lia. cbn. destruct (fe_twin f); [|reflexivity].
    split; [intros [E|E]; [lia|exact E]|intros E; right; exact E].
Qed.

Lemma esum_concat_chain (w : nat -> nat -> Q) (es : list fedge) css :
  Forall2 (fun f cs => esum w (ends cs) == w (fe_1 f) (fe_2 f)) es css ->
  esum w (ends (concat css)) == esum w (map fe_ends es).
Proof.
  induction 1 as [|f cs es css H _ IH]; [reflexivity|]. cbn [concat map]. rewrite ends_app, esum_app, H, IH. reflexivity.
Qed.

(* points on a line: the cross products telescope *)
Lemma route_line pos p q (t : nat -> Q) es : forall a b, route a b es ->
  (forall v, v = a \/ In v (map be_v2 es) -> veq (pos v) (vadd p (vscale (t v) (vsub q p)))) ->
  esum (fun x y => vcross (pos x) (pos y)) (ends es) == (t b - t a) * vcross p q.
Proof.
  induction es as [|e es IH]; intros a b; cbn [route]; [intros <- _; cbn; ring|].
  intros [<- R] H. cbn [ends map esum].
  rewrite (IH _ _ R) by (intros v [-> |Hv]; apply H; right; [left; reflexivity|right; exact Hv]).
  destruct (H (be_v1 e) (or_introl eq_refl)) as [A1 A2].
  destruct (H (be_v2 e) (or_intror (or_introl eq_refl))) as [B1 B2].
  unfold vcross, vadd, vscale, vsub in *. cbn [vx vy] in *. rewrite A1, A2, B1, B2. ring.
Qed.
Lemma route_last a b es : route a b es -> es <> [] -> last (map be_v2 es) a = b.
Proof.
  revert a. induction es as [|e es IH]; intros a R N; [congruence|]. destruct R as [_ R].
  destruct es as [|f es]; [cbn in *; exact R|]. specialize (IH (be_v2 e) R ltac:(discriminate)).
  change (last (map be_v2 (f :: es)) a = b). rewrite <- IH. clear. revert f. induction es as [|g es IHe]; intros f; [reflexivity|apply IHe].
Qed.
Lemma route_inner a b es v : route a b es -> In v (map be_v2 es) -> v = b \/ In v (map be_v2 (removelast es)).
Proof.
  revert a. induction es as [|e es IH]; intros a R H; [destruct H|]. destruct R as [_ R].
  destruct es as [|f es]; [destruct H as [<-|[]]; left; exact R|].
  rewrite removelast_cons by discriminate. destruct H as [<-|H]; [right; left; reflexivity|].
  destruct (IH _ R H) as [X|X]; [left; exact X|right; right; exact X].
Qed.

(* an abscissa for each vertex of the chain *)
Lemma on_line_choice (pos : nat -> vec2) p q (vs : list nat) :
  Forall (fun v => on_line p q (pos v)) vs ->
  exists t : nat -> Q, forall v, In v vs -> veq (pos v) (vadd p (vscale (t v) (vsub q p))).
Proof.
  induction 1 as [|v vs [s Hs] _ [t IH]]; [exists (fun _ => 0); intros v []|].
  exists (fun j => if Nat.eqb j v then s else t j). intros w [<-|Hw].
  - rewrite Nat.eqb_refl. exact Hs.
  - destruct (Nat.eqb_spec w v) as [-> |N]; [exact Hs|exact (IH w Hw)].
Qed.
Lemma line_start p q : veq p (vadd p (vscale 0 (vsub q p))).
Proof. split; cbn; ring. Qed.
Lemma line_end p q : veq q (vadd p (vscale 1 (vsub q p))).
Proof. split; cbn; ring. Qed.

Lemma chain_cross pos f pts cs p q : chain_of pos f pts cs ->
  veq (pos (fe_1 f)) p -> veq (pos (fe_2 f)) q -> Forall (on_line p q) pts -> 
  esum (fun x y => vcross (pos x) (pos y)) (ends cs) == vcross (pos (fe_1 f)) (pos (fe_2 f)).
Proof.
  intros (R & P & L & _) A B O.
  assert (O' : Forall (fun v => on_line p q (pos v)) (map be_v2 (removelast cs))).
  { rewrite <- P in O. clear - O. apply Forall_forall. intros v Hv. apply in_map_iff in Hv. destruct Hv as (c & <- & Hc).
    rewrite Forall_forall in O. apply O. apply in_map_iff. exists c. auto. }
  destruct (Nat.eq_dec (fe_1 f) (fe_2 f)) as [E|NE].
  - (* degenerate: all points coincide *)
    assert (EQ : veq p q). { apply (veq_trans _ (pos (fe_1 f))); [apply veq_sym, A|rewrite E; exact B]. }
    rewrite (route_line pos p q (fun _ => 0) cs _ _ R).
    + rewrite E. unfold vcross. ring.
    + intros v Hv. assert (C : v = fe_1 f \/ v = fe_2 f \/ In v (map be_v2 (removelast cs))).
      { destruct Hv as [Hv|Hv]; [left; exact Hv|right]. exact (route_inner _ _ _ _ R Hv). }
      destruct EQ as [X Y]. destruct C as [-> |[-> |C]].
      * destruct A as [A1 A2]. split; cbn; rewrite ?A1, ?A2; ring.
      * destruct B as [A1 A2]. split; cbn; rewrite ?A1, ?A2, ?X, ?Y; ring.
      * rewrite Forall_forall in O'. destruct (O' v C) as (s & A1 & A2). split; cbn in *; rewrite ?A1, ?A2, ?X, ?Y; ring.
  - destruct (on_line_choice pos p q _ O') as (t & T).
    set (t' := fun v => if Nat.eqb v (fe_1 f) then 0 else if Nat.eqb v (fe_2 f) then 1 else t v).
    rewrite (route_line pos p q t' cs _ _ R).
    + unfold t'. rewrite !Nat.eqb_refl. rewrite (proj2 (Nat.eqb_neq (fe_2 f) (fe_1 f))) by congruence.
      destruct A as [A1 A2], B as [B1 B2]. unfold vcross. rewrite A1, A2, B1, B2. ring.
    + intros v Hv. unfold t'. destruct (Nat.eqb_spec v (fe_1 f)) as [-> |N1].
      * exact (veq_trans _ _ _ A (line_start p q)).
      * destruct (Nat.eqb_spec v (fe_2 f)) as [-> |N2]; [exact (veq_trans _ _ _ B (line_end p q))|].
        apply T. destruct Hv as [Hv|Hv]; [congruence|]. destruct (route_inner _ _ _ _ R Hv); [congruence|assumption].
Qed.

Section Init.
Variable sub : vec2 -> vec2 -> list vec2.
Variable d : fdata.
Definition posn (v : nat) : vec2 := nth v (fd_verts d) (V2 0 0).
Definition edge_inner (f : fedge) : list vec2 := if fe_twin f then [] else sub (posn (fe_1 f)) (posn (fe_2 f)).
Definition refined_state : rstate := refine_front_edges sub (twin_ids 0 (fd_edges d)) (init_state d).

Theorem refined_tags : indices_ok d -> coords_in front_scale d ->
  (exists css, rs_front refined_state = concat css /\
     Forall2 (fun f cs => chain_of (rs_pos refined_state) f (edge_inner f) cs) (fd_edges d) css /\
     Forall2 (tagged sub posn (twin_ids 0 (fd_edges d)) (length (fd_edges d))) (init_edges 0 (fd_edges d)) css) /\
  (forall v, (v < length (fd_verts d))%nat -> rs_pos refined_state v = posn v) /\
  Permutation (rs_verts refined_state) (seq 0 (rs_nv refined_state)) /\
  NoDup (map be_id (rs_front refined_state)) /\
  (forall c, In c (rs_front refined_state) -> (be_id c < rs_ne refined_state)%nat) /\
  (proper d -> forall c, In c (rs_front refined_state) ->
     (be_v1 c < rs_nv refined_state)%nat /\ (be_v2 c < rs_nv refined_state)%nat /\ be_v1 c <> be_v2 c) /\
  (forall v, (length (fd_verts d) <= v < rs_nv refined_state)%nat ->
     exists f, In f (fd_edges d) /\ In (rs_pos refined_state v) (edge_inner f)).
Proof.
  intros OK SQ. set (es := init_edges 0 (fd_edges d)). set (tw := twin_ids 0 (fd_edges d)).
  set (n := length (fd_verts d)). set (st := init_state d).
  assert (FR : Forall2 from_fe (fd_edges d) es) by apply init_edges_from.
  assert (ND : NoDup (map be_id es)) by (unfold es; rewrite init_edges_ids; apply seq_NoDup).
  assert (IDS : forall e, In e es -> (be_id e < rs_ne st)%nat /\ (be_v1 e < n)%nat /\ (be_v2 e < n)%nat).
  { intros e He. split.
    - assert (X : In (be_id e) (seq 0 (length (fd_edges d)))) by (rewrite <- (init_edges_ids (fd_edges d) 0); apply in_map, He).
      apply in_seq in X. cbn. lia.
    - destruct (from_in _ _ _ FR He) as (f & Hf & -> & -> & _). exact (OK f Hf). }
  pose proof (fold_spec sub posn tw n es st [] [] eq_refl ND (fun e _ => fun x => x) IDS (le_n n)
    (fun v _ => eq_refl) (Permutation_refl _)) as F. cbv zeta in F.
  change (fold_left (step sub) (filter (fun e => negb (is_twin tw e)) es) (st, []))
    with (fold_left (fun (p : rstate * list nat) e =>
             let (st', ok) := refine_edge sub (fst p) e in
             (st', if ok then snd p ++ [be_id e] else snd p))
             (filter (fun e => negb (existsb (Nat.eqb (be_id e)) tw)) (rs_front st)) (st, [])) in F.
  unfold refined_state, refine_front_edges. fold tw st.
  set (r := fold_left _ _ _) in *. cbv zeta. cbn [rs_pos rs_verts rs_nv rs_front rs_ne].
  destruct F as (A & B & C & D & E & G & H). cbn [app] in A, D. change (rs_nv st) with n in *.
  assert (PO : forall v, (v < n)%nat -> rs_pos (fst r) v = posn v) by (intros v Hv; rewrite E by exact Hv; reflexivity).
  assert (FN : fold_left (fun es0 k => front_remove (rs_pos (fst r)) k es0) (snd r) (rs_front (fst r)) =
               grow sub posn tw false n (rs_ne st) es).
  { rewrite fold_front_remove_filter, A, D. change (rs_nv st) with n.
    apply grow_removed with (ne0 := rs_ne st); [lia| | |exact ND| |reflexivity].
    - intros e He. destruct (IDS e He) as (I1 & I2 & I3). split; [exact I1|].
      apply in_square_mid; rewrite PO by assumption; apply SQ, nth_In; assumption.
    - intros k Hk. apply in_map_iff in Hk. destruct Hk as (e & <- & He). apply filter_In in He. apply IDS, He.
    - intros e He. destruct (inner sub posn tw e) eqn:EI.
      + apply Bool.not_true_iff_false. intros X. apply existsb_exists in X. destruct X as (k & Hk & X). apply Nat.eqb_eq in X. subst k.
        apply in_map_iff in Hk. destruct Hk as (e' & I1 & He'). apply filter_In in He'. destruct He' as [He' Y].
        assert (e' = e) as -> by exact (id_inj _ _ _ ND He' He I1). rewrite EI in Y. discriminate.
      + apply existsb_exists. exists (be_id e). split; [|apply Nat.eqb_refl]. apply in_map, filter_In. rewrite EI. auto. }
  rewrite FN. 
  assert (INN : Forall2 (fun f e => inner sub posn tw e = edge_inner f) (fd_edges d) es).
  { assert (TW : Forall2 (fun f e => is_twin tw e = fe_twin f) (fd_edges d) es) by (apply init_twins; intros; reflexivity).
    clear - FR TW. clearbody tw es. revert TW. induction FR as [|f e fs es' (A & B & _) _ IH]; intros TW; [constructor|]. inversion TW; subst.
    constructor; [|apply IH; assumption]. unfold inner, edge_inner. rewrite H2, A, B. reflexivity. }
  split; [|split; [exact PO|split; [exact H|split; [|split; [|split]]]]].
  - destruct (grow_chains sub posn tw (rs_pos (fst r)) es) with (nv := n) (ne := rs_ne st) as (css & X & Y & TG).
    + intros e He. destruct (from_in _ _ _ FR He) as (f & _ & _ & _ & _ & P). exists (fe_fix f). exact P.
    + exact G.
    + exists css. split; [exact X|]. split; [|exact TG]. clear - FR INN Y. clearbody tw es r. revert css Y INN. induction FR as [|f e fs es' (A & B & C & D) _ IH]; intros css Y INN.
      * inversion Y. constructor.
      * inversion Y; subst. inversion INN; subst. constructor; [|apply IH; assumption].
        match goal with X : chain_be _ _ _ _ |- _ => destruct X as (R & P & L & K) end.
        match goal with X : inner _ _ _ e = edge_inner f |- _ => rewrite X in P, L end.
        rewrite A, B in R. rewrite C, D in K. unfold chain_of. auto.
  - apply (grow_ids sub posn tw es n (rs_ne st)); [intros e He; apply IDS, He|exact ND].
  - intros c Hc. rewrite C. destruct (proj2 (grow_ids sub posn tw es n (rs_ne st) (fun e He => proj1 (IDS e He)) ND) c Hc) as [X|X]; [|lia].
    pose proof (proj1 (IDS c X)). lia.
  - intros PR c Hc. rewrite B. refine (grow_verts sub posn tw n es _ n (rs_ne st) c (le_n n) Hc).
    intros e He. destruct (IDS e He) as (_ & I1 & I2). split; [exact I1|]. split; [exact I2|].
    destruct (from_in _ _ _ FR He) as (f & Hf & -> & -> & _). exact (PR f Hf).
  - intros v Hv. rewrite B in Hv. clear - Hv G INN. clearbody tw es r n. revert Hv G. generalize n as m.
    induction INN as [|f e fs es' EI _ IH]; intros m Hv G; [cbn in Hv; lia|].
    destruct G as [G1 G2]. rewrite more_cons in Hv.
    destruct (Nat.lt_ge_cases v (m + length (inner sub posn tw e))) as [X|X].
    + exists f. split; [left; reflexivity|]. rewrite <- EI. replace v with (m + (v - m))%nat by lia. rewrite G1 by lia. apply nth_In. lia.
    + destruct (IH (m + length (inner sub posn tw e))%nat ltac:(lia) G2) as (g & Hg & Hi). exists g. split; [right; exact Hg|exact Hi].
Qed.
Theorem refined_spec : indices_ok d -> coords_in front_scale d ->
  (exists css, rs_front refined_state = concat css /\
     Forall2 (fun f cs => chain_of (rs_pos refined_state) f (edge_inner f) cs) (fd_edges d) css) /\
  (forall v, (v < length (fd_verts d))%nat -> rs_pos refined_state v = posn v) /\
  Permutation (rs_verts refined_state) (seq 0 (rs_nv refined_state)) /\
  NoDup (map be_id (rs_front refined_state)) /\
  (forall c, In c (rs_front refined_state) -> (be_id c < rs_ne refined_state)%nat) /\
  (proper d -> forall c, In c (rs_front refined_state) ->
     (be_v1 c < rs_nv refined_state)%nat /\ (be_v2 c < rs_nv refined_state)%nat /\ be_v1 c <> be_v2 c) /\
  (forall v, (length (fd_verts d) <= v < rs_nv refined_state)%nat ->
     exists f, In f (fd_edges d) /\ In (rs_pos refined_state v) (edge_inner f)).
Proof. intros OK SQ. destruct (refined_tags OK SQ) as ((css & A & B & _) & R). split; [exists css; split; assumption|exact R]. Qed.

Lemma chains_sum (w : nat -> nat -> Q) css :
  Forall2 (fun f cs => esum w (ends cs) == w (fe_1 f) (fe_2 f)) (fd_edges d) css ->
  esum w (ends (concat css)) == esum w (map fe_ends (fd_edges d)).
Proof. exact (esum_concat_chain w (fd_edges d) css). Qed.

(* closed before, closed after *)
Theorem refined_closed : indices_ok d -> coords_in front_scale d ->
  (forall v, in_deg v (map fe_ends (fd_edges d)) = out_deg v (map fe_ends (fd_edges d))) -> closed (rs_front refined_state).
Proof.
  intros OK SQ C. destruct (refined_spec OK SQ) as ((css & E & F) & _). rewrite E.
  unfold closed. refine (proj1 (balanced_degrees _) _). intros f. rewrite chains_sum; [apply (proj2 (balanced_degrees _) C)|].
  eapply Forall2_impl'; [|exact F]. intros g cs (R & _). apply route_esum. exact R.
Qed.

Theorem refined_area : indices_ok d -> coords_in front_scale d -> (forall a b, Forall (on_line a b) (sub a b)) ->
  enclosed (rs_pos refined_state) (rs_front refined_state) == area_of d.
Proof.
  intros OK SQ L. destruct (refined_spec OK SQ) as ((css & E & F) & P & _). unfold enclosed, area_of.
  apply Qmult_comp; [reflexivity|]. rewrite E, chains_sum.
  - clear F E. assert (X : forall fs, (forall f, In f fs -> In f (fd_edges d)) ->
      esum (fun a b => vcross (rs_pos refined_state a) (rs_pos refined_state b)) (map fe_ends fs) ==
      sumQ (map (fun f => vcross (nth (fe_1 f) (fd_verts d) (V2 0 0)) (nth (fe_2 f) (fd_verts d) (V2 0 0))) fs)).
    { induction fs as [|f fs IH]; intros H; [reflexivity|]. cbn [map esum fe_ends sumQ].
      rewrite IH by (intros; apply H; right; assumption). destruct (OK f (H f (or_introl eq_refl))) as [O1 O2].
      rewrite (P _ O1), (P _ O2). reflexivity. }
    apply X. auto.
  - assert (X : forall fs css, (forall f, In f fs -> In f (fd_edges d)) -> 
      Forall2 (fun f cs => chain_of (rs_pos refined_state) f (edge_inner f) cs) fs css ->
      Forall2 (fun f cs => esum (fun a b => vcross (rs_pos refined_state a) (rs_pos refined_state b)) (ends cs) ==
        vcross (rs_pos refined_state (fe_1 f)) (rs_pos refined_state (fe_2 f))) fs css).
    { intros fs cs H. induction 1 as [|f c fs cs' HC _ IH]; constructor; [|apply IH; intros; apply H; right; assumption].
      destruct (OK f (H f (or_introl eq_refl))) as [O1 O2].
      apply chain_cross with (pts := edge_inner f) (p := posn (fe_1 f)) (q := posn (fe_2 f)); [exact HC| | |].
      - rewrite (P _ O1). apply veq_refl.
      - rewrite (P _ O2). apply veq_refl.
      - unfold edge_inner. destruct (fe_twin f); [constructor|apply L]. }
    apply X; auto.
Qed.
End Init.

(* ---- the part of the front that is not fixed ---- *)
Definition loosened (es : list bedge) : list bedge := filter (fun e => negb (is_fixed e)) es.

Lemma fixed_prop b : has_property (front_prop b) e_is_fixed = b.
Proof. destruct b; reflexivity. Qed.
Lemma ghost_fixed k a b c : is_fixed (BE k a b c (N.lor e_is_fixed e_is_ghost)) = true.
Proof. reflexivity. Qed.
Lemma ghosts_loosened es : forall ne, loosened (add_ghosts ne es) = loosened es.
Proof.
  unfold loosened. induction es as [|e es IH]; intros ne; [reflexivity|]. cbn [add_ghosts filter].
  destruct (is_fixed e) eqn:F; cbn [negb].
  - cbn [filter]. rewrite ghost_fixed, F. cbn [negb]. apply IH.
  - cbn [filter]. rewrite F. cbn [negb]. rewrite IH. reflexivity.
Qed.
Lemma ghosts_sum (w : nat -> nat -> Q) es : antisym w -> forall ne, esum w (ends (add_ghosts ne es)) == esum w (ends (loosened es)).
Proof.
  intros A. unfold loosened. induction es as [|e es IH]; intros ne; [reflexivity|]. cbn [add_ghosts filter].
  destruct (is_fixed e) eqn:F; cbn [negb]; cbn [ends map esum be_v1 be_v2].
  - rewrite (IH (S ne)), (A (be_v1 e) (be_v2 e)). ring.
  - rewrite (IH ne). reflexivity.
Qed.

Lemma loosened_chains (w : nat -> nat -> Q) pos pts : forall fs css,
  Forall2 (fun f cs => chain_of pos f (pts f) cs) fs css ->
  (forall f cs, In f fs -> chain_of pos f (pts f) cs -> esum w (ends cs) == w (fe_1 f) (fe_2 f)) ->
  esum w (ends (loosened (concat css))) == esum w (map fe_ends (filter (fun f => negb (fe_fix f)) fs)).
Proof.
  unfold loosened. intros fs css F. induction F as [|f cs fs css H _ IH]; intros X; [reflexivity|]. cbn [concat map filter].
  rewrite filter_app, ends_app, esum_app, IH by (intros g c Hg; apply X; right; exact Hg).
  pose proof (X f cs (or_introl eq_refl) H) as E. destruct H as (_ & _ & _ & P). rewrite Forall_forall in P.
  assert (Fx : forall c, In c cs -> is_fixed c = fe_fix f).
  { intros c Hc. unfold is_fixed. destruct (P c Hc) as [_ ->]. destruct (fe_fix f); reflexivity. }
  destruct (fe_fix f); cbn [negb].
  - rewrite filter_none by (intros c Hc; rewrite (Fx c Hc); reflexivity). cbn [ends map esum]. ring.
  - rewrite filter_all by (intros c Hc; rewrite (Fx c Hc); reflexivity). rewrite E. cbn [map esum fe_ends]. reflexivity.
Qed.

Lemma renumber_ids es : forall k, map be_id (renumber k es) = seq k (length es).
Proof. induction es as [|e es IH]; intros k; cbn; [|rewrite IH]; reflexivity. Qed.
Lemma renumber_ends es : forall k, ends (renumber k es) = ends es.
Proof. induction es as [|e es IH]; intros k; [reflexivity|]. cbn [renumber ends map] in *. unfold ends in IH. rewrite IH. reflexivity. Qed.
Lemma renumber_len es : forall k, length (renumber k es) = length es.
Proof. induction es as [|e es IH]; intros k; cbn; [|rewrite IH]; reflexivity. Qed.
Lemma renumber_in es : forall k e, In e (renumber k es) -> exists f, In f es /\ payload e = payload f.
Proof.
  induction es as [|f es IH]; intros k e H; [destruct H|]. destruct H as [<-|H].
  - exists f. split; [left; reflexivity|reflexivity].
  - destruct (IH _ _ H) as (g & A & B). exists g. split; [right; exact A|exact B].
Qed.

Section Prepared.
Variable sub : vec2 -> vec2 -> list vec2.
Variable d : fdata.
Variable loose : list vec2.
Variable col : Z.
Let st := prepared sub d loose col.

Lemma prepared_front : ms_front st = renumber 0 (loosened (rs_front (refined_state sub d))).
Proof.
  unfold st, prepared, init_front. cbn [rs_front ms_front]. fold (refined_state sub d).
  fold (loosened (add_ghosts (rs_ne (refined_state sub d)) (rs_front (refined_state sub d)))).
  rewrite ghosts_loosened. reflexivity.
Qed.
Lemma prepared_pos v : (v < rs_nv (refined_state sub d))%nat -> ms_pos st v = rs_pos (refined_state sub d) v.
Proof. intros H. unfold st, prepared, init_front. cbn [ms_pos rs_nv rs_pos]. apply set_positions_old. exact H. Qed.

Hypothesis OK : indices_ok d.
Hypothesis SQ : coords_in front_scale d.

Lemma prepared_wf : proper d -> wf st.
Proof.
  intros PR. destruct (refined_spec sub d OK SQ) as (_ & _ & PV & ND & IL & VL & _).
  constructor.
  - rewrite prepared_front, renumber_ids. apply seq_NoDup.
  - rewrite prepared_front. intros e He. apply (in_map be_id) in He. rewrite renumber_ids in He. apply in_seq in He.
    change (ms_ne st) with (length (renumber 0 (filter (fun e => negb (is_fixed e)) (rs_front (init_front sub d))))).
    unfold init_front. cbn [rs_front]. fold (refined_state sub d).
    fold (loosened (add_ghosts (rs_ne (refined_state sub d)) (rs_front (refined_state sub d)))).
    rewrite ghosts_loosened, renumber_len. lia.
  - rewrite prepared_front. intros e He. destruct (renumber_in _ _ _ He) as (f & Hf & P). unfold payload in P.
    injection P as P1 P2 _ _. apply filter_In in Hf. destruct (VL PR f (proj1 Hf)) as (A & B & C). rewrite P1, P2.
    change (ms_nv st) with (rs_nv (refined_state sub d) + length loose)%nat. lia.
  - constructor.
  - intros t [].
  - intros t [].
  - change (ms_verts st) with (rs_verts (refined_state sub d) ++ seq (rs_nv (refined_state sub d)) (length loose)).
    eapply Permutation_NoDup; [symmetry; rewrite PV, <- seq_app; apply Permutation_refl|apply seq_NoDup].
  - intros v Hv. change (ms_verts st) with (rs_verts (refined_state sub d) ++ seq (rs_nv (refined_state sub d)) (length loose)) in Hv.
    change (ms_nv st) with (rs_nv (refined_state sub d) + length loose)%nat.
    apply in_app_or in Hv. destruct Hv as [Hv|Hv]; [apply (Permutation_in _ PV), in_seq in Hv|apply in_seq in Hv]; lia.
Qed.
Lemma prepared_closed : 
  (forall v, in_deg v (map fe_ends (filter (fun f => negb (fe_fix f)) (fd_edges d))) =
             out_deg v (map fe_ends (filter (fun f => negb (fe_fix f)) (fd_edges d)))) -> closed (ms_front st).
Proof.
  intros C. destruct (refined_spec sub d OK SQ) as ((css & E & F) & _). unfold closed. rewrite prepared_front, renumber_ends, E.
  refine (proj1 (balanced_degrees _) _). intros f.
  rewrite (loosened_chains _ _ _ _ _ F); [apply (proj2 (balanced_degrees _) C)|].
  intros g cs _ (R & _). apply route_esum. exact R.
Qed.
Lemma ghost_front_closed :
  (forall v, in_deg v (map fe_ends (filter (fun f => negb (fe_fix f)) (fd_edges d))) =
             out_deg v (map fe_ends (filter (fun f => negb (fe_fix f)) (fd_edges d)))) -> closed (rs_front (init_front sub d)).
Proof.
  intros C. destruct (refined_spec sub d OK SQ) as ((css & E & F) & _). unfold closed, init_front. fold (refined_state sub d). cbn [rs_front].
  refine (proj1 (balanced_degrees _) _). intros f. rewrite ghosts_sum by (intros a b; ring). rewrite E.
  rewrite (loosened_chains _ _ _ _ _ F); [apply (proj2 (balanced_degrees _) C)|].
  intros g cs _ (R & _). apply route_esum. exact R.
Qed.
Lemma prepared_props e : In e (ms_front st) -> be_prop e = e_on_boundary.
Proof.
  rewrite prepared_front. intros He. destruct (renumber_in _ _ _ He) as (f & Hf & P). injection P as _ _ _ ->.
  apply filter_In in Hf. destruct Hf as [Hf X]. destruct (refined_spec sub d OK SQ) as ((css & E & F) & _).
  rewrite E in Hf. apply in_concat in Hf. destruct Hf as (cs & Hc & Hf).
  assert (G : exists g, be_prop f = if fe_fix g then e_is_fixed else e_on_boundary).
  { clear - F Hc Hf. induction F as [|g c fs css H _ IH]; [destruct Hc|]. destruct Hc as [-> |Hc]; [|exact (IH Hc)].
    destruct H as (_ & _ & _ & P). rewrite Forall_forall in P. exists g. apply (P f Hf). }
  destruct G as (g & G). unfold is_fixed in X. rewrite G in *. destruct (fe_fix g); [discriminate X|reflexivity].
Qed.
Lemma prepared_square : (forall a b p, In p (sub a b) -> in_square front_scale a = true -> in_square front_scale b = true -> in_square front_scale p = true) ->
  (forall p, In p loose -> in_square front_scale p = true) -> vertices_in front_scale st.
Proof.
  intros SS SL v Hv. destruct (refined_spec sub d OK SQ) as (_ & PO & _ & _ & _ & _ & NP).
  change (ms_nv st) with (rs_nv (refined_state sub d) + length loose)%nat in Hv.
  destruct (Nat.lt_ge_cases v (rs_nv (refined_state sub d))) as [L|L].
  - rewrite prepared_pos by exact L. destruct (Nat.lt_ge_cases v (length (fd_verts d))) as [M|M].
    + rewrite PO by exact M. apply SQ, nth_In, M.
    + destruct (NP v (conj M L)) as (f & Hf & Hp). unfold edge_inner in Hp. destruct (fe_twin f); [destruct Hp|].
      destruct (OK f Hf) as [O1 O2]. apply (SS _ _ _ Hp); apply SQ, nth_In; assumption.
  - apply SL. unfold st, prepared, init_front. cbn [ms_pos rs_nv rs_pos]. fold (refined_state sub d).
    replace v with (rs_nv (refined_state sub d) + (v - rs_nv (refined_state sub d)))%nat by lia.
    rewrite set_positions_new by lia. apply nth_In. lia.
Qed.
Lemma prepared_area : (forall a b, Forall (on_line a b) (sub a b)) -> proper d ->
  enclosed (ms_pos st) (ms_front st) ==
  (1 # 2) * sumQ (map (fun f => vcross (posn d (fe_1 f)) (posn d (fe_2 f))) (filter (fun f => negb (fe_fix f)) (fd_edges d))).
Proof.
  intros L PR. destruct (refined_spec sub d OK SQ) as ((css & E & F) & PO & _ & _ & _ & VL & _). unfold enclosed.
  apply Qmult_comp; [reflexivity|]. rewrite prepared_front, renumber_ends.
  rewrite (esum_ext _ (fun a b => vcross (rs_pos (refined_state sub d) a) (rs_pos (refined_state sub d) b))).
  2:{ intros a b H. apply in_map_iff in H. destruct H as (c & X & Hc). injection X as <- <-. apply filter_In in Hc.
      destruct (VL PR c (proj1 Hc)) as (A & B & _). rewrite (prepared_pos _ A), (prepared_pos _ B). reflexivity. }
  rewrite E, (loosened_chains _ _ _ _ _ F).
  - clear E F. assert (X : forall fs, (forall f, In f fs -> In f (fd_edges d)) ->
      esum (fun a b => vcross (rs_pos (refined_state sub d) a) (rs_pos (refined_state sub d) b)) (map fe_ends fs) ==
      sumQ (map (fun f => vcross (posn d (fe_1 f)) (posn d (fe_2 f))) fs)).
    { induction fs as [|f fs IH]; intros H; [reflexivity|]. cbn [map esum fe_ends sumQ].
      rewrite IH by (intros; apply H; right; assumption). destruct (OK f (H f (or_introl eq_refl))) as [O1 O2].
      rewrite (PO _ O1), (PO _ O2). reflexivity. }
    apply X. intros f Hf. apply filter_In in Hf. apply Hf.
  - intros f cs Hf HC. destruct (OK f Hf) as [O1 O2].
    apply chain_cross with (pts := edge_inner sub d f) (p := posn d (fe_1 f)) (q := posn d (fe_2 f)); [exact HC| | |].
    + rewrite (PO _ O1). apply veq_refl.
    + rewrite (PO _ O2). apply veq_refl.
    + unfold edge_inner. destruct (fe_twin f); [constructor|apply L].
Qed.
End Prepared.

(* ---- from the edges of the domain ---- *)
Lemma matches_indices vs fs ws : Forall2 (matches vs) fs ws -> forall f, In f fs -> (fe_1 f < length vs)%nat /\ (fe_2 f < length vs)%nat.
Proof.
  induction 1 as [|g w fs ws (A & B & _) _ IH]; intros f H; [destruct H|]. destruct H as [<-|H]; [|exact (IH f H)].
  split; eapply stands_lt; eassumption.
Qed.
Lemma collect_indices bounds fixed meshes : indices_ok (collect_front_edges bounds fixed meshes).
Proof. destruct (collect_spec bounds fixed meshes) as (_ & _ & M & _). exact (matches_indices _ _ _ M). Qed.
Lemma collect_coords s bounds fixed meshes :
  (forall e, In e (bounds ++ fixed ++ concat meshes) -> in_square s (de_a e) = true /\ in_square s (de_b e) = true) ->
  (forall e n, In n (neighbours meshes e) -> In n (concat meshes)) ->
  coords_in s (collect_front_edges bounds fixed meshes).
Proof.
  intros H N x Hx. destruct (collect_spec bounds fixed meshes) as (_ & I & _). specialize (I x Hx).
  apply in_app_or in I. destruct I as [I|I]; apply in_flat_map in I; destruct I as (e & He & I).
  - unfold points_of in I. pose proof (N e) as Ne. destruct (neighbours meshes e) as [|n ns].
    + destruct (H e ltac:(apply in_or_app; left; exact He)) as [A B]. destruct I as [<-|[<-|[]]]; assumption.
    + apply in_flat_map in I. destruct I as (n' & Hn & I).
      destruct (H n') as [A B]; [|destruct I as [<-|[<-|[]]]; assumption].
      apply in_or_app. right. apply in_or_app. right. apply Ne, Hn.
  - destruct (H e ltac:(apply in_or_app; right; apply in_or_app; left; exact He)) as [A B].
    destruct I as [<-|[<-|[]]]; assumption.
Qed.
Lemma ins_de_perm v e l : Permutation (ins_de v e l) (e :: l).
Proof.
  induction l as [|f l IH]; cbn; [apply Permutation_refl|]. destruct (Qltb _ _); [|apply Permutation_refl].
  rewrite IH. apply perm_swap.
Qed.
Lemma sort_de_perm v l : Permutation (sort_de v l) l.
Proof. unfold sort_de. induction l as [|e l IH]; cbn; [constructor|]. rewrite ins_de_perm. constructor. exact IH. Qed.
Lemma neighbours_perm meshes e :
  Permutation (neighbours meshes e) (filter (on_de e) (filter (near_de e) (concat meshes))).
Proof.
  unfold neighbours.
  assert (G : forall acc, Permutation
    (fold_left (fun acc m => sort_de (de_a e) (acc ++ filter (on_de e) (filter (near_de e) m))) meshes acc)
    (acc ++ filter (on_de e) (filter (near_de e) (concat meshes)))); [|exact (G [])].
  induction meshes as [|m ms IH]; intros acc; cbn [fold_left concat]; [cbn; rewrite app_nil_r; apply Permutation_refl|].
  rewrite IH, !filter_app, app_assoc. apply Permutation_app_tail. apply sort_de_perm.
Qed.
Lemma neighbours_in meshes e n : In n (neighbours meshes e) ->
  In n (concat meshes) /\ near_de e n = true /\ on_de e n = true.
Proof. intros H. apply (Permutation_in _ (neighbours_perm meshes e)) in H. apply filter_In in H. destruct H as [H A]. apply filter_In in H. destruct H. auto. Qed.

Lemma app_eq_len {A} (l1 l1' l2 l2' : list A) : l1 ++ l2 = l1' ++ l2' -> length l1 = length l1' -> l1 = l1' /\ l2 = l2'.
Proof.
  revert l1'. induction l1 as [|a l1 IH]; intros [|b l1'] H L; try discriminate L; [auto|].
  injection H as -> H. injection L as L. destruct (IH _ H L) as [-> ->]. auto.
Qed.

(* the edges that are not fixed are those along the boundaries *)
Lemma collect_loose bounds fixed meshes :
  (forall e, In e bounds -> de_fix e = false) -> (forall e, In e fixed -> de_fix e = true) ->
  (forall e, In e (concat meshes) -> de_fix e = false) ->
  Forall2 (matches (fd_verts (collect_front_edges bounds fixed meshes)))
    (filter (fun f => negb (fe_fix f)) (fd_edges (collect_front_edges bounds fixed meshes)))
    (flat_map (wanted meshes) bounds).
Proof.
  intros HB HF HM. destruct (collect_spec bounds fixed meshes) as (_ & _ & M & FL).
  set (d := collect_front_edges bounds fixed meshes) in *.
  apply Forall2_app_inv_r in M. destruct M as (fs1 & fs2 & M1 & M2 & E). rewrite E in *. rewrite map_app in FL.
  assert (L1 : length (map flags fs1) = length (flat_map (flags_of meshes) bounds)).
  { rewrite map_length, (Forall2_len _ _ _ M1). clear. induction bounds as [|e es IH]; [reflexivity|]. cbn [flat_map].
    rewrite !app_length, IH. f_equal. unfold wanted, flags_of. destruct (neighbours meshes e); cbn; rewrite ?map_length; reflexivity. }
  apply app_eq_len in FL; [|exact L1]. destruct FL as [FL1 FL2].
  rewrite filter_app, filter_all, filter_none, app_nil_r; [exact M1| |].
  - intros f Hf. apply (in_map flags) in Hf. rewrite FL2 in Hf. apply in_map_iff in Hf. destruct Hf as (e & X & He).
    unfold flags in X. injection X as _ <-. rewrite (HF e He). reflexivity.
  - intros f Hf. apply (in_map flags) in Hf. rewrite FL1 in Hf. apply in_flat_map in Hf. destruct Hf as (e & He & X).
    unfold flags_of in X. pose proof (neighbours_in meshes e) as N. destruct (neighbours meshes e) as [|n ns].
    + destruct X as [X|[]]. unfold flags in X. injection X as _ <-. rewrite (HB e He). reflexivity.
    + apply in_map_iff in X. destruct X as (n' & X & Hn). unfold flags in X. injection X as _ <-.
      rewrite (HM n') by (apply (N n' Hn)). reflexivity.
Qed.
Lemma collect_proper bounds fixed meshes :
  (forall e, In e (bounds ++ fixed ++ concat meshes) -> veqb (de_a e) (de_b e) = false) ->
  proper (collect_front_edges bounds fixed meshes).
Proof.
  intros H f Hf. destruct (collect_spec bounds fixed meshes) as (D & _ & M & _).
  assert (X : exists w, In w (flat_map (wanted meshes) bounds ++ map (fun e => (de_ends e, de_col e)) fixed) /\
    matches (fd_verts (collect_front_edges bounds fixed meshes)) f w).
  { clear H D. induction M as [|g w fs ws A _ IH]; [destruct Hf|]. destruct Hf as [-> |Hf].
    - exists w. split; [left; reflexivity|exact A].
    - destruct (IH Hf) as (v & B & C). exists v. split; [right; exact B|exact C]. }
  destruct X as (w & Hw & (y & A1 & A2) & (z & B1 & B2) & _). intros E. rewrite E in A1.
  assert (y = z) as -> by congruence.
  assert (Q : veqb (fst (fst w)) (snd (fst w)) = true).
  { apply veqb_true. apply veqb_true in A2, B2. exact (veq_trans _ _ _ A2 (veq_sym _ _ B2)). }
  assert (N : veqb (fst (fst w)) (snd (fst w)) = false); [|congruence].
  apply in_app_or in Hw. destruct Hw as [Hw|Hw].
  - apply in_flat_map in Hw. destruct Hw as (e & He & Hw). unfold wanted in Hw. pose proof (neighbours_in meshes e) as NI.
    destruct (neighbours meshes e) as [|n ns].
    + destruct Hw as [<-|[]]. cbn. apply H. apply in_or_app. left. exact He.
    + apply in_map_iff in Hw. destruct Hw as (n' & <- & Hn). cbn. rewrite veqb_sym. apply H.
      apply in_or_app. right. apply in_or_app. right. apply (NI n' Hn).
  - apply in_map_iff in Hw. destruct Hw as (e & <- & He). cbn. apply H. apply in_or_app. right. apply in_or_app. left. exact He.
Qed.
Lemma matched_area vs fs ws : Forall2 (matches vs) fs ws ->
  sumQ (map (fun f => vcross (nth (fe_1 f) vs (V2 0 0)) (nth (fe_2 f) vs (V2 0 0))) fs) ==
  sumQ (map (fun w => vcross (fst (fst w)) (snd (fst w))) ws).
Proof.
  induction 1 as [|f w fs ws ((y & A1 & A2) & (z & B1 & B2) & _) _ IH]; [reflexivity|]. cbn [map sumQ]. rewrite IH.
  rewrite (nth_error_nth _ _ _ A1), (nth_error_nth _ _ _ B1). apply veqb_true in A2, B2. destruct A2 as [X1 X2], B2 as [Y1 Y2].
  unfold vcross. rewrite X1, X2, Y1, Y2. reflexivity.
Qed.
