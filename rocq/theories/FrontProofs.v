(* Proofs about the initial front. *)
From Coq Require Import Lia Lqa Permutation.
From Verif Require Import Base Chain GeomModel FacetModel UtilModel BdryModel BdrySpec BdryProofs
  AdvanceModel AdvanceSpec AdvanceProofs FrontModel FrontSpec.
Open Scope Q_scope.

Lemma veq_refl a : veq a a. Proof. split; reflexivity. Qed.
Lemma veq_sym a b : veq a b -> veq b a. Proof. intros [A B]. split; symmetry; assumption. Qed.
Lemma veq_trans a b c : veq a b -> veq b c -> veq a c.
Proof. intros [A B] [C D]. split; etransitivity; eassumption. Qed.
Lemma veqb_refl a : veqb a a = true. Proof. apply veqb_true, veq_refl. Qed.
Lemma veqb_sym a b : veqb a b = veqb b a.
Proof.
  destruct (veqb a b) eqn:E, (veqb b a) eqn:F; try reflexivity.
  - apply veqb_true, veq_sym, veqb_true in E. congruence.
  - apply veqb_true, veq_sym, veqb_true in F. congruence.
Qed.
Lemma veqb_trans a b c : veqb a b = true -> veqb b c = veqb a c.
Proof.
  intros H. apply veqb_true in H. destruct (veqb b c) eqn:E, (veqb a c) eqn:F; try reflexivity.
  - apply veqb_true in E. rewrite <- F. symmetry. apply veqb_true. exact (veq_trans _ _ _ H E).
  - apply veqb_true in F. rewrite <- E. apply veqb_true. exact (veq_trans _ _ _ (veq_sym _ _ H) F).
Qed.

(* ---- vertices ---- *)
Lemma find_vertex_some vs x i : find_vertex vs x = Some i -> stands vs i x.
Proof.
  revert i. induction vs as [|y vs IH]; intros i H; cbn in H; [discriminate|].
  destruct (veqb x y) eqn:E; [injection H as <-; exists y; auto|].
  destruct (find_vertex vs x) as [j|]; [|discriminate]. injection H as <-.
  destruct (IH j eq_refl) as (z & A & B). exists z. auto.
Qed.
Lemma find_vertex_none vs x : find_vertex vs x = None -> forall y, In y vs -> veqb x y = false.
Proof.
  induction vs as [|z vs IH]; intros H y Hy; [destruct Hy|]. cbn in H. destruct (veqb x z) eqn:E; [discriminate|].
  destruct (find_vertex vs x) as [j|]; [discriminate|]. destruct Hy as [<-|Hy]; auto.
Qed.
Lemma stands_app vs l i x : stands vs i x -> stands (vs ++ l) i x.
Proof. intros (y & A & B). exists y. split; [|exact B]. rewrite nth_error_app1; [exact A|]. apply nth_error_Some. congruence. Qed.
Lemma stands_lt vs i x : stands vs i x -> (i < length vs)%nat.
Proof. intros (y & A & _). apply nth_error_Some. congruence. Qed.

Lemma add_vertex_spec vs x vs' i : distinct vs -> add_edge_vertex vs x = (vs', i) ->
  distinct vs' /\ stands vs' i x /\ (exists l, vs' = vs ++ l) /\
  (forall y, In y vs' -> In y vs \/ y = x).
Proof.
  intros D. unfold add_edge_vertex. destruct (find_vertex vs x) as [j|] eqn:E; intros H; injection H as <- <-.
  - split; [exact D|]. split; [exact (find_vertex_some _ _ _ E)|]. split; [exists []; rewrite app_nil_r; reflexivity|auto].
  - pose proof (find_vertex_none _ _ E) as N. split; [|split; [|split; [exists [x]; reflexivity|]]].
    + intros i j y z Hi Hj Hyz.
      assert (C : forall k w, nth_error (vs ++ [x]) k = Some w -> (nth_error vs k = Some w /\ In w vs) \/ (k = length vs /\ w = x)).
      { intros k w Hk. destruct (Nat.lt_ge_cases k (length vs)) as [L|L].
        - left. rewrite nth_error_app1 in Hk by exact L. split; [exact Hk|exact (nth_error_In _ _ Hk)].
        - right. rewrite nth_error_app2 in Hk by exact L. destruct (k - length vs)%nat as [|m] eqn:M; cbn in Hk.
          + injection Hk as <-. split; [lia|reflexivity].
          + destruct m; discriminate. }
      destruct (C i y Hi) as [[A1 A2]|[A1 A2]], (C j z Hj) as [[B1 B2]|[B1 B2]].
      * exact (D _ _ _ _ A1 B1 Hyz).
      * subst z. specialize (N y A2). rewrite veqb_sym in N. congruence.
      * subst y. specialize (N z B2). congruence.
      * congruence.
    + exists x. split; [|apply veqb_refl]. rewrite nth_error_app2, Nat.sub_diag by lia. reflexivity.
    + intros y Hy. apply in_app_or in Hy. destruct Hy as [Hy|[Hy|[]]]; auto.
Qed.

Lemma matches_app vs l f w : matches vs f w -> matches (vs ++ l) f w.
Proof. intros (A & B & C). split; [apply stands_app, A|]. split; [apply stands_app, B|exact C]. Qed.

Definition reversed (twin : bool) (e : dedge) : vec2 * vec2 * Z :=
  (if twin then swap_edge (de_ends e) else de_ends e, de_col e).
Definition flags (f : fedge) : bool * bool := (fe_twin f, fe_fix f).

Lemma add_edge_data_spec twin d e : distinct (fd_verts d) ->
  distinct (fd_verts (add_edge_data twin d e)) /\
  (exists l, fd_verts (add_edge_data twin d e) = fd_verts d ++ l) /\
  (forall y, In y (fd_verts (add_edge_data twin d e)) -> In y (fd_verts d) \/ y = de_a e \/ y = de_b e) /\
  exists f, fd_edges (add_edge_data twin d e) = fd_edges d ++ [f] /\
    matches (fd_verts (add_edge_data twin d e)) f (reversed twin e) /\ flags f = (twin, de_fix e).
Proof.
  intros D. unfold add_edge_data. destruct (add_edge_vertex (fd_verts d) (de_a e)) as [vs1 i1] eqn:E1.
  destruct (add_vertex_spec _ _ _ _ D E1) as (D1 & S1 & (l1 & L1) & I1).
  destruct (add_edge_vertex vs1 (de_b e)) as [vs2 i2] eqn:E2.
  destruct (add_vertex_spec _ _ _ _ D1 E2) as (D2 & S2 & (l2 & L2) & I2). cbn [fd_verts fd_edges].
  split; [exact D2|]. split; [exists (l1 ++ l2); rewrite L2, L1, app_assoc; reflexivity|]. split.
  { intros y Hy. destruct (I2 y Hy) as [H| ->]; [|auto]. destruct (I1 y H); auto. }
  eexists. split; [reflexivity|].
  assert (S1' : stands vs2 i1 (de_a e)) by (rewrite L2; apply stands_app; exact S1).
  destruct twin; (split; [|reflexivity]); unfold matches, reversed; cbn; auto.
Qed.

(* folding over a list of edges *)
Lemma fold_data_spec (g : fdata -> dedge -> fdata) (want : dedge -> list (vec2 * vec2 * Z)) (fl : dedge -> list (bool * bool))
  (pts : dedge -> list vec2) :
  (forall d e, distinct (fd_verts d) ->
     distinct (fd_verts (g d e)) /\ (exists l, fd_verts (g d e) = fd_verts d ++ l) /\
     (forall y, In y (fd_verts (g d e)) -> In y (fd_verts d) \/ In y (pts e)) /\
     exists fs, fd_edges (g d e) = fd_edges d ++ fs /\ Forall2 (matches (fd_verts (g d e))) fs (want e) /\ map flags fs = fl e) ->
  forall es d, distinct (fd_verts d) ->
     let d' := fold_left g es d in
     distinct (fd_verts d') /\ (exists l, fd_verts d' = fd_verts d ++ l) /\
     (forall y, In y (fd_verts d') -> In y (fd_verts d) \/ In y (flat_map pts es)) /\
     exists fs, fd_edges d' = fd_edges d ++ fs /\ Forall2 (matches (fd_verts d')) fs (flat_map want es) /\ map flags fs = flat_map fl es.
Proof.
  intros G. induction es as [|e es IH]; intros d D; cbn [fold_left flat_map].
  - split; [exact D|]. split; [exists []; rewrite app_nil_r; reflexivity|]. split; [auto|].
    exists []. rewrite app_nil_r. repeat split; constructor.
  - destruct (G d e D) as (D1 & (l1 & L1) & I1 & fs1 & E1 & M1 & F1).
    destruct (IH (g d e) D1) as (D2 & (l2 & L2) & I2 & fs2 & E2 & M2 & F2).
    split; [exact D2|]. split; [exists (l1 ++ l2); rewrite L2, L1, app_assoc; reflexivity|]. split.
    { intros y Hy. rewrite in_app_iff. destruct (I2 y Hy) as [H|H]; [|auto]. destruct (I1 y H); auto. }
    exists (fs1 ++ fs2). rewrite E2, E1, app_assoc. split; [reflexivity|]. split.
    + apply Forall2_app; [|exact M2]. rewrite L2. eapply Forall2_impl'; [|exact M1]. intros a b H. apply matches_app, H.
    + rewrite map_app, F1, F2. reflexivity.
Qed.

Lemma add_one twin d e : distinct (fd_verts d) ->
  distinct (fd_verts (add_edge_data twin d e)) /\ (exists l, fd_verts (add_edge_data twin d e) = fd_verts d ++ l) /\
  (forall y, In y (fd_verts (add_edge_data twin d e)) -> In y (fd_verts d) \/ In y [de_a e; de_b e]) /\
  exists fs, fd_edges (add_edge_data twin d e) = fd_edges d ++ fs /\
    Forall2 (matches (fd_verts (add_edge_data twin d e))) fs [reversed twin e] /\ map flags fs = [(twin, de_fix e)].
Proof.
  intros D. destruct (add_edge_data_spec twin d e D) as (D1 & L1 & I1 & f & E & M & F).
  split; [exact D1|]. split; [exact L1|]. split.
  { intros y Hy. destruct (I1 y Hy) as [H|[-> | ->]]; cbn; auto. }
  exists [f]. split; [exact E|]. split; [constructor; [exact M|constructor]|]. cbn. rewrite F. reflexivity.
Qed.
Lemma flat_map_single {A B} (f : A -> B) l : flat_map (fun x => [f x]) l = map f l.
Proof. induction l as [|a l IH]; cbn; [|rewrite IH]; reflexivity. Qed.

Definition flags_of (meshes : list (list dedge)) (e : dedge) : list (bool * bool) :=
  match neighbours meshes e with [] => [(false, de_fix e)] | ns => map (fun n => (true, de_fix n)) ns end.
Definition points_of (meshes : list (list dedge)) (e : dedge) : list vec2 :=
  match neighbours meshes e with [] => [de_a e; de_b e] | ns => flat_map (fun n => [de_a n; de_b n]) ns end.

Lemma collect_edge_spec meshes d e : distinct (fd_verts d) ->
  let d' := collect_edge meshes d e in
  distinct (fd_verts d') /\ (exists l, fd_verts d' = fd_verts d ++ l) /\
  (forall y, In y (fd_verts d') -> In y (fd_verts d) \/ In y (points_of meshes e)) /\
  exists fs, fd_edges d' = fd_edges d ++ fs /\ Forall2 (matches (fd_verts d')) fs (wanted meshes e) /\ map flags fs = flags_of meshes e.
Proof.
  intros D. unfold collect_edge, wanted, flags_of, points_of. destruct (neighbours meshes e) as [|n ns].
  - exact (add_one false d e D).
  - pose proof (fold_data_spec (add_edge_data true) (fun e => [reversed true e]) (fun e => [(true, de_fix e)])
      (fun e => [de_a e; de_b e]) (fun d e => add_one true d e) (n :: ns) d D) as H.
    rewrite !flat_map_single in H. exact H.
Qed.

Lemma distinct_nil : distinct [].
Proof. intros i j y z H. destruct i; discriminate. Qed.

Lemma collect_spec bounds fixed meshes :
  let d := collect_front_edges bounds fixed meshes in
  distinct (fd_verts d) /\
  (forall y, In y (fd_verts d) -> In y (flat_map (points_of meshes) bounds ++ flat_map (fun e => [de_a e; de_b e]) fixed)) /\
  Forall2 (matches (fd_verts d)) (fd_edges d)
    (flat_map (wanted meshes) bounds ++ map (fun e => (de_ends e, de_col e)) fixed) /\
  map flags (fd_edges d) = flat_map (flags_of meshes) bounds ++ map (fun e => (false, de_fix e)) fixed.
Proof.
  unfold collect_front_edges. cbv zeta.
  destruct (fold_data_spec _ _ _ _ (collect_edge_spec meshes) bounds (FD [] []) distinct_nil) as (D1 & _ & I1 & fs1 & E1 & M1 & F1).
  set (d1 := fold_left (collect_edge meshes) bounds (FD [] [])) in *.
  destruct (fold_data_spec (add_edge_data false) (fun e => [reversed false e]) (fun e => [(false, de_fix e)])
      (fun e => [de_a e; de_b e]) (fun d e => add_one false d e) fixed d1 D1) as (D2 & (l2 & L2) & I2 & fs2 & E2 & M2 & F2).
  rewrite (flat_map_single (reversed false)) in M2. rewrite (flat_map_single (fun e => (false, de_fix e))) in F2. split; [exact D2|]. split.
  { intros y Hy. rewrite in_app_iff. destruct (I2 y Hy) as [H|H]; [|auto]. destruct (I1 y H) as [[]|H']; auto. }
  rewrite E2, E1. cbn [fd_edges app]. split; [|rewrite map_app, F1, F2; reflexivity].
  apply Forall2_app; [|exact M2]. rewrite L2. eapply Forall2_impl'; [|exact M1]. intros a b H. apply matches_app, H.
Qed.

(* ---- closedness of the index pairs ---- *)
Definition fe_ends (f : fedge) : nat * nat := (fe_1 f, fe_2 f).

Lemma stands_eqb vs i x v y : distinct vs -> stands vs i x -> nth_error vs v = Some y -> Nat.eqb i v = veqb x y.
Proof.
  intros D (z & A & B) Hv. rewrite <- (veqb_trans _ _ y B).
  destruct (Nat.eqb_spec i v) as [-> |N].
  - assert (z = y) as -> by congruence. symmetry. apply veqb_refl.
  - destruct (veqb z y) eqn:E; [|reflexivity]. exfalso. apply N. exact (D _ _ _ _ A Hv E).
Qed.
Lemma degrees vs fs ws v y : distinct vs -> Forall2 (matches vs) fs ws -> nth_error vs v = Some y ->
  out_deg v (map fe_ends fs) = starting y (map fst ws) /\ in_deg v (map fe_ends fs) = ending y (map fst ws).
Proof.
  intros D M Hv. unfold out_deg, in_deg, starting, ending.
  induction M as [|f w fs ws (A & B & _) M [IH1 IH2]]; [split; reflexivity|]. cbn [map filter fe_ends fst snd].
  rewrite (stands_eqb _ _ _ _ _ D A Hv), (stands_eqb _ _ _ _ _ D B Hv).
  split; [destruct (veqb (fst (fst w)) y)|destruct (veqb (snd (fst w)) y)]; cbn [length]; congruence.
Qed.
Lemma closed_indices vs fs ws : distinct vs -> Forall2 (matches vs) fs ws -> closed_curves (map fst ws) ->
  forall v, in_deg v (map fe_ends fs) = out_deg v (map fe_ends fs).
Proof.
  intros D M C v. destruct (nth_error vs v) as [y|] eqn:E.
  - destruct (degrees vs fs ws v y D M E) as [-> ->]. symmetry. apply C.
  - assert (L : forall f, In f fs -> (fe_1 f < length vs)%nat /\ (fe_2 f < length vs)%nat).
    { clear - M. induction M as [|f w fs ws (A & B & _) M IH]; intros g [].
      - subst g. split; eapply stands_lt; eassumption.
      - apply IH. assumption. }
    apply nth_error_None in E. unfold in_deg, out_deg.
    assert (Z : forall (g : nat * nat -> nat), (forall p, In p (map fe_ends fs) -> (g p < length vs)%nat) ->
       filter (fun p => Nat.eqb (g p) v) (map fe_ends fs) = []).
    { intros g Hg. apply filter_none. intros p Hp. apply Nat.eqb_neq. specialize (Hg p Hp). lia. }
    rewrite !Z; [reflexivity| |]; intros p Hp; apply in_map_iff in Hp; destruct Hp as (f & <- & Hf); apply L; exact Hf.
Qed.

(* a covered edge may be replaced by its cover *)
Lemma count_app {A} (g : A -> bool) l l' : length (filter g (l ++ l')) = (length (filter g l) + length (filter g l'))%nat.
Proof. rewrite filter_app, app_length. reflexivity. Qed.
Lemma walks_balance l : forall a b x, walks a b l ->
  (starting x l + (if veqb b x then 1 else 0) = ending x l + (if veqb a x then 1 else 0))%nat.
Proof.
  unfold starting, ending. induction l as [|[p q] l IH]; intros a b x; cbn [walks filter fst snd].
  - intros H. rewrite (veqb_trans _ _ x H). lia.
  - intros [H W]. specialize (IH q b x W). pose proof (veqb_trans _ _ x H) as E.
    destruct (veqb p x) eqn:Ep, (veqb q x) eqn:Eq; cbn [length]; rewrite <- E; lia.
Qed.
Lemma count_perm {A} (g : A -> bool) l l' : Permutation l l' -> length (filter g l) = length (filter g l').
Proof. intros P. apply Permutation_length, perm_filter, P. Qed.

Lemma wanted_closed meshes bounds : closed_curves (map de_ends bounds) ->
  (forall e, In e bounds -> neighbours meshes e <> [] -> covered e (neighbours meshes e)) ->
  closed_curves (map fst (flat_map (wanted meshes) bounds)).
Proof.
  intros C H x. specialize (C x).
  assert (G : (starting x (map fst (flat_map (wanted meshes) bounds)) + ending x (map de_ends bounds) =
               ending x (map fst (flat_map (wanted meshes) bounds)) + starting x (map de_ends bounds))%nat).
  { clear C. induction bounds as [|e es IH]; [reflexivity|]. cbn [flat_map map]. rewrite map_app. unfold starting, ending in *.
    rewrite !count_app. cbn [filter de_ends fst snd].
    assert (IH' := IH (fun f Hf => H f (or_intror Hf))). clear IH.
    assert (K : (length (filter (fun p => veqb (fst p) x) (map fst (wanted meshes e))) + (if veqb (de_b e) x then 1 else 0) =
                 length (filter (fun p => veqb (snd p) x) (map fst (wanted meshes e))) + (if veqb (de_a e) x then 1 else 0))%nat).
    { unfold wanted. pose proof (H e (or_introl eq_refl)) as He. destruct (neighbours meshes e) as [|n ns].
      - cbn. destruct (veqb (de_a e) x), (veqb (de_b e) x); reflexivity.
      - destruct (He ltac:(discriminate)) as (l & P & W). rewrite map_map. cbn [fst].
        rewrite <- (count_perm _ _ _ P), <- (count_perm (fun p => veqb (snd p) x) _ _ P). exact (walks_balance _ _ _ x W). }
    destruct (veqb (de_a e) x), (veqb (de_b e) x); cbn [length]; lia. }
  lia.
Qed.
