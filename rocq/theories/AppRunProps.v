(* C51 and C52: the main loop of the application. *)
From Coq Require Import String Lia.
From Verif Require Import Base GenModel GenProps AppRunModel AppRunSpec.
Open Scope nat_scope.
Open Scope list_scope.

(* ---- one call ---- *)
Definition with_domain (c : acat) : Prop := c = AMeshing \/ c = ASmoothing.
Record ready (w : world) (a d : nat) : Prop := {
  rd_mesh : In a (gn_meshes (wo_gen w));
  rd_domain : get_domain (wo_gen w) a = Some d;
  rd_live : wo_dom w = Some d;
  rd_slot : forall c o, with_domain c -> gn_algo (wo_gen w) c = Some o -> al_mesh o = a -> al_dom o = d
}.
(* the call leaves meshes and domains alone *)
Record after (w w' : world) (a : nat) (e : event) : Prop := {
  af_meshes : gn_meshes (wo_gen w') = gn_meshes (wo_gen w);
  af_pairs : gn_pairs (wo_gen w') = gn_pairs (wo_gen w);
  af_dom : wo_dom w' = wo_dom w;
  af_log : wo_log w' = wo_log w ++ [e];
  af_slot : forall c o, gn_algo (wo_gen w') c = Some o -> gn_algo (wo_gen w) c = Some o \/ al_mesh o = a
}.
Lemma uses_iff k : uses_domain k = true <-> with_domain (category k).
Proof. destruct k; cbn; unfold with_domain; split; intros H; try reflexivity; try discriminate; try (left; reflexivity); try (right; reflexivity); destruct H; discriminate. Qed.

Lemma call_ok w k a d f e : ready w a d -> exists dd s w', call w k a f e = Ok w' /\ ready w' a d /\ after w w' a (e (AL k a dd (f s))) /\ (uses_domain k = true -> dd = d).
Proof.
  intros R. unfold call. assert (A : exists o, access setting defaults (wo_gen w) k a = Ok (if match gn_algo (wo_gen w) (category k) with
      | Some o => akind_eqb (al_kind o) k && Nat.eqb (al_mesh o) a | None => false end then wo_gen w else put_algo (wo_gen w) o, o) /\
      al_kind o = k /\ al_mesh o = a /\ (uses_domain k = true -> al_dom o = d)).
  { unfold access. destruct (gn_algo (wo_gen w) (category k)) as [o|] eqn:S.
    - destruct (akind_eqb (al_kind o) k && Nat.eqb (al_mesh o) a) eqn:E.
      + apply andb_true_iff in E. destruct E as [E1 E2]. apply akind_eqb_eq in E1. apply Nat.eqb_eq in E2. exists o. split; [reflexivity|].
        split; [exact E1|]. split; [exact E2|]. intros U. apply (rd_slot _ _ _ R (category k) o); [apply uses_iff; exact U|exact S|exact E2].
      + rewrite (rd_domain _ _ _ R). eexists. split; [reflexivity|]. cbn. auto.
    - rewrite (rd_domain _ _ _ R). eexists. split; [reflexivity|]. cbn. auto. }
  destruct A as (o & -> & K & M & D). cbn [obind fst snd]. rewrite K, M.
  assert (L : alive_at w k (AL k a (al_dom o) (f (al_set o))) = true).
  { unfold alive_at. cbn [al_mesh al_dom]. apply andb_true_iff. split; [apply has_eqb; exact (rd_mesh _ _ _ R)|].
    rewrite (rd_live _ _ _ R). destruct (uses_domain k) eqn:U; [|reflexivity]. cbn [negb orb]. rewrite (D eq_refl). apply Nat.eqb_refl. }
  rewrite L. exists (al_dom o), (al_set o). eexists. split; [reflexivity|].
  match goal with |- context [configure ?g _ _] => set (g1 := g) end. assert (G : gn_meshes g1 = gn_meshes (wo_gen w) /\ gn_pairs g1 = gn_pairs (wo_gen w) /\
    forall c p, gn_algo g1 c = Some p -> gn_algo (wo_gen w) c = Some p \/ (c = category k /\ p = o)).
  { unfold g1. match goal with |- context [if ?x then _ else _] => destruct x end; [auto|]. split; [reflexivity|]. split; [reflexivity|].
    intros c p. cbn. rewrite K. destruct (acat_eqb c (category k)) eqn:E; [|auto]. apply acat_eqb_eq in E. intros X. injection X as <-. right. auto. }
  destruct G as (G1 & G2 & G3). clearbody g1.
  assert (SL : forall c p, gn_algo (configure g1 o f) c = Some p -> gn_algo (wo_gen w) c = Some p \/ (c = category k /\ al_mesh p = a /\ al_dom p = al_dom o)).
  { intros c p. cbn. rewrite K. destruct (acat_eqb c (category k)) eqn:E.
    - apply acat_eqb_eq in E. intros X. injection X as <-. right. cbn. auto.
    - intros X. destruct (G3 c p X) as [Y|[Y _]]; [left; exact Y|]. apply acat_eqb_eq in Y. congruence. }
  split; [|split; [|exact D]].
  - constructor; cbn [wo_gen wo_dom].
    + cbn. rewrite G1. exact (rd_mesh _ _ _ R).
    + unfold get_domain. cbn. rewrite G2. exact (rd_domain _ _ _ R).
    + exact (rd_live _ _ _ R).
    + intros c p C S M'. destruct (SL c p S) as [S'|(-> & _ & ->)]; [exact (rd_slot _ _ _ R c p C S' M')|]. apply D. apply uses_iff. exact C.
  - constructor; cbn [wo_gen wo_dom wo_log]; [exact G1|exact G2|reflexivity|reflexivity|].
    intros c p S. destruct (SL c p S) as [S'|(_ & X & _)]; auto.
Qed.

(* afterwards the object of the category works on this mesh *)
Lemma call_slot w k a f e w' : call w k a f e = Ok w' -> forall o, gn_algo (wo_gen w') (category k) = Some o -> al_mesh o = a.
Proof.
  unfold call. intros E o.
  assert (A : forall g p, access setting defaults (wo_gen w) k a = Ok (g, p) -> al_kind p = k /\ al_mesh p = a).
  { intros g p. unfold access. destruct (gn_algo (wo_gen w) (category k)) as [q|].
    - destruct (akind_eqb (al_kind q) k && Nat.eqb (al_mesh q) a) eqn:Y.
      + intros X. injection X as _ <-. apply andb_true_iff in Y. destruct Y as [Y1 Y2]. apply akind_eqb_eq in Y1. apply Nat.eqb_eq in Y2. auto.
      + destruct (get_domain (wo_gen w) a); [|discriminate]. intros X. injection X as _ <-. auto.
    - destruct (get_domain (wo_gen w) a); [|discriminate]. intros X. injection X as _ <-. auto. }
  destruct (access setting defaults (wo_gen w) k a) as [[g p]| |]; [|discriminate|discriminate]. destruct (A g p eq_refl) as [K M]. cbn [obind fst snd] in E.
  destruct (alive_at w k _); [|discriminate]. injection E as <-. cbn. rewrite K.
  assert (Q : acat_eqb (category k) (category k) = true) by (apply acat_eqb_eq; reflexivity). rewrite Q. intros X. injection X as <-. exact M.
Qed.

Lemma call_other w k a f e w' : call w k a f e = Ok w' -> forall c, c <> category k -> gn_algo (wo_gen w') c = gn_algo (wo_gen w) c.
Proof.
  unfold call. intros E c N.
  assert (A : forall g p, access setting defaults (wo_gen w) k a = Ok (g, p) -> al_kind p = k /\ gn_algo g c = gn_algo (wo_gen w) c).
  { assert (Q : acat_eqb c (category k) = false) by (destruct (acat_eqb c (category k)) eqn:Q; [apply acat_eqb_eq in Q; contradiction|reflexivity]).
    intros g p. unfold access. destruct (gn_algo (wo_gen w) (category k)) as [q|].
    - destruct (akind_eqb (al_kind q) k && Nat.eqb (al_mesh q) a) eqn:Y.
      + intros X. injection X as <- <-. apply andb_true_iff in Y. destruct Y as [Y1 Y2]. apply akind_eqb_eq in Y1. auto.
      + destruct (get_domain (wo_gen w) a); [|discriminate]. intros X. injection X as <- <-. cbn. rewrite Q. auto.
    - destruct (get_domain (wo_gen w) a); [|discriminate]. intros X. injection X as <- <-. cbn. rewrite Q. auto. }
  destruct (access setting defaults (wo_gen w) k a) as [[g p]| |]; [|discriminate|discriminate]. destruct (A g p eq_refl) as [K M]. cbn [obind fst snd] in E.
  destruct (alive_at w k _); [|discriminate]. injection E as <-. cbn. rewrite K.
  destruct (acat_eqb c (category k)) eqn:Q; [apply acat_eqb_eq in Q; contradiction|]. exact M.
Qed.

(* several calls on the same mesh *)
Record several (w w' : world) (a : nat) (es : list event) : Prop := {
  sv_meshes : gn_meshes (wo_gen w') = gn_meshes (wo_gen w);
  sv_pairs : gn_pairs (wo_gen w') = gn_pairs (wo_gen w);
  sv_dom : wo_dom w' = wo_dom w;
  sv_log : wo_log w' = wo_log w ++ es;
  sv_slot : forall c o, gn_algo (wo_gen w') c = Some o -> gn_algo (wo_gen w) c = Some o \/ al_mesh o = a
}.
Lemma several_nil w a : several w w a [].
Proof. constructor; auto. rewrite app_nil_r. reflexivity. Qed.
Lemma several_cons w w1 w2 a e es : after w w1 a e -> several w1 w2 a es -> several w w2 a (e :: es).
Proof.
  intros A S. constructor.
  - rewrite (sv_meshes _ _ _ _ S). apply A.
  - rewrite (sv_pairs _ _ _ _ S). apply A.
  - rewrite (sv_dom _ _ _ _ S). apply A.
  - rewrite (sv_log _ _ _ _ S), (af_log _ _ _ _ A), <- app_assoc. reflexivity.
  - intros c o H. destruct (sv_slot _ _ _ _ S c o H) as [H'|H']; [exact (af_slot _ _ _ _ A c o H')|auto].
Qed.
Lemma several_one w w1 a e : after w w1 a e -> several w w1 a [e].
Proof. intros A. apply (several_cons w w1 w1); [exact A|apply several_nil]. Qed.

Lemma layers_ok ls : forall w a d, ready w a d -> exists w', make_layers w a ls = Ok w' /\ ready w' a d /\ several w w' a (layer_calls a d ls).
Proof.
  induction ls as [|l ls IH]; intros w a d R; cbn [make_layers layer_calls map].
  - exists w. split; [reflexivity|]. split; [exact R|apply several_nil].
  - destruct (call_ok w KQuadLayer a d (fun _ => Layer l) (fun o => Layered (al_mesh o) (al_dom o) (al_set o)) R) as (dd & s & w1 & E & R1 & A & D).
    rewrite E. cbn [obind]. destruct (IH w1 a d R1) as (w2 & E2 & R2 & S2). exists w2. split; [exact E2|]. split; [exact R2|].
    cbn [al_mesh al_dom al_set] in A. rewrite (D eq_refl) in A. exact (several_cons _ _ _ _ _ _ A S2).
Qed.
Lemma triangulate_ok w a d : ready w a d -> exists w', triangulate w a = Ok w' /\ ready w' a d /\ after w w' a (Triangulated a d).
Proof.
  intros R. destruct (call_ok w KTriangulation a d (fun s => s) (fun o => Triangulated (al_mesh o) (al_dom o)) R) as (dd & s & w1 & E & R1 & A & D).
  exists w1. split; [exact E|]. split; [exact R1|]. cbn [al_mesh al_dom] in A. rewrite (D eq_refl) in A. exact A.
Qed.
Lemma mesh_ok w a d b : ready w a d -> match mesh_calls a d b with
  | Some es => exists w', mesh_it w a b = Ok w' /\ ready w' a d /\ several w w' a es
  | None => mesh_it w a b = Throw
  end.
Proof.
  intros R. unfold mesh_calls, mesh_it. destruct (String.eqb (bl_algorithm b) "Tri-to-Quad").
  - destruct (triangulate_ok w a d R) as (w1 & E & R1 & A). rewrite E. cbn [obind].
    destruct (call_ok w1 KTri2Quad a d (fun s => s) (fun o => Converted (al_mesh o)) R1) as (dd & s & w2 & E2 & R2 & A2 & _).
    exists w2. split; [exact E2|]. split; [exact R2|]. exact (several_cons _ _ _ _ _ _ A (several_one _ _ _ _ A2)).
  - destruct (String.eqb (bl_algorithm b) "Triangulation"); [|reflexivity].
    destruct (triangulate_ok w a d R) as (w1 & E & R1 & A). exists w1. split; [exact E|]. split; [exact R1|apply several_one; exact A].
Qed.
Lemma refine_ok n : forall w a d, ready w a d -> exists w', refine n w a = Ok w' /\ ready w' a d /\ several w w' a (repeat (Refined a) n).
Proof.
  induction n as [|n IH]; intros w a d R; cbn [refine repeat].
  - exists w. split; [reflexivity|]. split; [exact R|apply several_nil].
  - destruct (call_ok w KQuadRefinement a d (fun s => s) (fun o => Refined (al_mesh o)) R) as (dd & s & w1 & E & R1 & A & _).
    rewrite E. cbn [obind]. destruct (IH w1 a d R1) as (w2 & E2 & R2 & S2). exists w2. split; [exact E2|]. split; [exact R2|].
    exact (several_cons _ _ _ _ _ _ A S2).
Qed.
Lemma smooth_ok w a d b : ready w a d -> exists w', smooth w a b = Ok w' /\ ready w' a d /\
  after w w' a (Smoothed a d (Smoothing (bl_smooth_layers b)) (bl_iterations b)).
Proof.
  intros R. unfold smooth.
  destruct (call_ok w KMixed a d (fun _ => Smoothing (bl_smooth_layers b)) (fun o => Smoothed (al_mesh o) (al_dom o) (al_set o) (bl_iterations b)) R) as (dd & s & w1 & E & R1 & A & D).
  exists w1. split; [exact E|]. split; [exact R1|]. cbn [al_mesh al_dom al_set] in A. rewrite (D eq_refl) in A. exact A.
Qed.

Lemma mesh_slot w a b w' : mesh_it w a b = Ok w' -> forall o, gn_algo (wo_gen w') AMeshing = Some o -> al_mesh o = a.
Proof.
  unfold mesh_it. destruct (String.eqb (bl_algorithm b) "Tri-to-Quad").
  - destruct (triangulate w a) as [w1| |] eqn:T; [|discriminate|discriminate]. cbn [obind]. intros E o S.
    apply (call_slot _ _ _ _ _ _ T o). cbn [category]. rewrite <- S. symmetry. exact (call_other _ _ _ _ _ _ E AMeshing ltac:(discriminate)).
  - destruct (String.eqb (bl_algorithm b) "Triangulation"); [|discriminate]. intros E. exact (call_slot _ _ _ _ _ _ E).
Qed.
Section Run.
Variable merges : list event -> nat -> nat -> bool.
Variable complete : list event -> nat -> bool.
Variable new_address new_domain : list event -> list nat -> nat.
(* an allocator never returns an address that is in use *)
Hypothesis fresh_mesh : forall l used, ~ In (new_address l used) used.
Notation run := (run merges complete new_address new_domain).
Notation expected_run := (expected_run merges complete new_address new_domain).

(* between two blocks *)
Record between (w : world) (ms : list nat) (d : option nat) (l : list event) : Prop := {
  bt_meshes : gn_meshes (wo_gen w) = ms;
  bt_pairs : map fst (gn_pairs (wo_gen w)) = ms;
  bt_nodup : NoDup ms;
  bt_dom : wo_dom w = d;
  bt_log : wo_log w = l;
  bt_slot : forall c o, with_domain c -> gn_algo (wo_gen w) c = Some o -> In (al_mesh o) ms
}.

Lemma fresh_domain (ps : list (nat * nat)) a d : ~ In a (map fst ps) ->
  find (fun p => Nat.eqb (fst p) a) (ps ++ [(a, d)]) = Some (a, d).
Proof.
  intros N. induction ps as [|[b e] ps IH]; cbn.
  - rewrite Nat.eqb_refl. reflexivity.
  - destruct (Nat.eqb_spec b a) as [->|X]; [exfalso; apply N; left; reflexivity|]. apply IH. intros Y. apply N. right. exact Y.
Qed.
Lemma find_erase (ps : list (nat * nat)) a o : o <> a ->
  find (fun p => Nat.eqb (fst p) a) (erase_first (fun p => Nat.eqb (fst p) o) ps) = find (fun p => Nat.eqb (fst p) a) ps.
Proof.
  intros N. induction ps as [|[b e] ps IH]; [reflexivity|]. cbn. destruct (Nat.eqb_spec b o) as [->|X].
  - destruct (Nat.eqb_spec o a) as [->|Y]; [contradiction|reflexivity].
  - cbn. destruct (Nat.eqb b a); [reflexivity|exact IH].
Qed.
Lemma ready_merged w a d ms l : In a ms -> gn_meshes (wo_gen w) = ms -> ready w a d -> forall g, gn_algo g = gn_algo (wo_gen w) ->
  In a (gn_meshes g) -> get_domain g a = Some d -> ready (WO g (wo_dom w) l) a d.
Proof.
  intros I M R g A IG GD. constructor; cbn [wo_gen wo_dom]; [exact IG|exact GD|exact (rd_live _ _ _ R)|].
  intros c o C S X. rewrite A in S. exact (rd_slot _ _ _ R c o C S X).
Qed.

(* merging: [ms] are the older meshes *)
Lemma merge_ok w ms a d : ready w a d -> gn_meshes (wo_gen w) = ms ++ [a] -> map fst (gn_pairs (wo_gen w)) = ms ++ [a] -> NoDup (ms ++ [a]) ->
  exists w', merge_first merges w a = Ok w' /\ ready w' a d /\ gn_meshes (wo_gen w') = fst (merge_calls merges (wo_log w) ms a) /\
    map fst (gn_pairs (wo_gen w')) = fst (merge_calls merges (wo_log w) ms a) /\
    wo_log w' = wo_log w ++ snd (merge_calls merges (wo_log w) ms a) /\ gn_algo (wo_gen w') = gn_algo (wo_gen w) /\
    NoDup (fst (merge_calls merges (wo_log w) ms a)) /\ In a (fst (merge_calls merges (wo_log w) ms a)).
Proof.
  intros R M P N. unfold merge_first, merge_calls. rewrite M. destruct ms as [|o ms].
  - cbn [app]. exists w. split; [reflexivity|]. split; [exact R|]. cbn [fst snd]. rewrite app_nil_r. cbn in *. auto 10.
  - cbn [app]. destruct (ms ++ [a]) as [|y r] eqn:Y; [destruct ms; discriminate|]. rewrite <- Y in *. cbv zeta. cbn [fst snd].
    assert (NO : o <> a) by (cbn [app] in N; inversion N as [|? ? N1 N2]; subst; intros ->; apply N1; rewrite <- Y || idtac; apply in_or_app; right; left; reflexivity).
    unfold merge_meshes. rewrite (rd_domain _ _ _ R).
    assert (DO : exists e, get_domain (wo_gen w) o = Some e).
    { destruct (get_domain (wo_gen w) o) as [e|] eqn:G; [exists e; reflexivity|]. apply get_domain_map in G. exfalso. apply G. rewrite P. left. reflexivity. }
    destruct DO as [e DO]. rewrite DO. destruct (merges (wo_log w) a o).
    + assert (EX : existsb (Nat.eqb o) (gn_meshes (wo_gen w)) = true) by (apply has_eqb; rewrite M; left; reflexivity).
      rewrite EX, M. cbn [app erase_first]. rewrite Nat.eqb_refl. eexists. split; [reflexivity|]. cbn [wo_gen wo_log gn_meshes gn_pairs gn_algo].
      assert (PE : map fst (erase_first (fun p => Nat.eqb (fst p) o) (gn_pairs (wo_gen w))) = ms ++ [a]).
      { rewrite erase_fst, P. cbn [app erase_first]. rewrite Nat.eqb_refl. reflexivity. }
      split; [|cbn [app] in N; inversion N; subst; split; [reflexivity|]; split; [exact PE|]; split; [reflexivity|]; split; [reflexivity|]; split; [assumption|apply in_or_app; right; left; reflexivity]].
      apply (ready_merged w a d (o :: ms ++ [a])); [right; apply in_or_app; right; left; reflexivity|exact M|exact R|reflexivity|apply in_or_app; right; left; reflexivity|].
      unfold get_domain. cbn [gn_pairs]. rewrite (find_erase _ a o NO). exact (rd_domain _ _ _ R).
    + eexists. split; [reflexivity|]. cbn [wo_gen wo_log].
      split; [|split; [exact M|]; split; [exact P|]; split; [reflexivity|]; split; [reflexivity|]; split; [exact N|right; apply in_or_app; right; left; reflexivity]].
      apply (ready_merged w a d (o :: ms ++ [a])); [right; apply in_or_app; right; left; reflexivity|exact M|exact R|reflexivity|rewrite M; right; apply in_or_app; right; left; reflexivity|exact (rd_domain _ _ _ R)].
Qed.

Lemma file_expected b : expected_file b = file_of b.
Proof.
  unfold expected_file, file_of. cbn [find formats fst].
  rewrite (String.eqb_sym "vtu"), (String.eqb_sym "VTU"), (String.eqb_sym "txt"), (String.eqb_sym "TXT").
  destruct (String.eqb (bl_format b) "vtu") eqn:A; [rewrite orb_true_r; reflexivity|].
  destruct (String.eqb (bl_format b) "VTU") eqn:B; [reflexivity|].
  destruct (String.eqb (bl_format b) "txt") eqn:C; [rewrite orb_true_r; reflexivity|].
  destruct (String.eqb (bl_format b) "TXT") eqn:D; reflexivity.
Qed.
Lemma nodup_last (ms : list nat) a : NoDup ms -> ~ In a ms -> NoDup (ms ++ [a]).
Proof.
  intros N X. induction ms as [|x ms IH]; [constructor; [tauto|constructor]|]. inversion N as [|? ? N1 N2]; subst. cbn [app]. constructor.
  - intros Y. apply in_app_iff in Y. destruct Y as [Y|[Y|[]]]; [contradiction|]. subst. apply X. left. reflexivity.
  - apply IH; [exact N2|]. intros Y. apply X. right. exact Y.
Qed.
Lemma block_ok w ms d0 l b : between w ms d0 l ->
  let d := new_domain l (match d0 with Some d => [d] | None => [] end) in
  let a := new_address l ms in
  match mesh_calls a d b with
  | None => generate_mesh merges complete new_address (init_domain new_domain w) b = Throw
  | Some calls =>
      let log1 := l ++ Created a d :: layer_calls a d (bl_layers b) ++ calls in
      let log2 := log1 ++ snd (merge_calls merges log1 ms a) ++ final_calls a d b in
      let c := complete log2 a in
      exists w', generate_mesh merges complete new_address (init_domain new_domain w) b = Ok (w', c) /\
        between w' (fst (merge_calls merges log1 ms a)) (Some d) (log2 ++ [Checked a d c])
  end.
Proof.
  intros B. cbv zeta. unfold generate_mesh, init_domain. cbn [wo_dom wo_gen wo_log]. rewrite (bt_dom _ _ _ _ B), (bt_log _ _ _ _ B), (bt_meshes _ _ _ _ B).
  set (d := new_domain l _). set (a := new_address l ms). assert (F : ~ In a ms) by apply fresh_mesh.
  set (w0 := WO (new_mesh (wo_gen w) a d) (Some d) (l ++ [Created a d])).
  assert (M0 : gn_meshes (wo_gen w0) = ms ++ [a]) by (cbn; rewrite (bt_meshes _ _ _ _ B); reflexivity).
  assert (P0 : map fst (gn_pairs (wo_gen w0)) = ms ++ [a]) by (cbn; rewrite map_app, (bt_pairs _ _ _ _ B); reflexivity).
  assert (R0 : ready w0 a d).
  { constructor.
    - rewrite M0. apply in_or_app. right. left. reflexivity.
    - unfold get_domain. cbn. rewrite fresh_domain; [reflexivity|]. rewrite (bt_pairs _ _ _ _ B). exact F.
    - reflexivity.
    - intros c o C S X. cbn in S. exfalso. apply F. rewrite <- X. exact (bt_slot _ _ _ _ B c o C S). }
  destruct (layers_ok (bl_layers b) w0 a d R0) as (w1 & E1 & R1 & S1). rewrite E1. cbn [obind].
  pose proof (mesh_ok w1 a d b R1) as MK. destruct (mesh_calls a d b) as [calls|]; [|rewrite MK; reflexivity].
  destruct MK as (w2 & E2 & R2 & S2). rewrite E2. cbn [obind].
  assert (L2 : wo_log w2 = l ++ Created a d :: layer_calls a d (bl_layers b) ++ calls).
  { rewrite (sv_log _ _ _ _ S2), (sv_log _ _ _ _ S1). cbn. rewrite <- !app_assoc. reflexivity. }
  assert (M2 : gn_meshes (wo_gen w2) = ms ++ [a]) by (rewrite (sv_meshes _ _ _ _ S2), (sv_meshes _ _ _ _ S1); exact M0).
  assert (P2 : map fst (gn_pairs (wo_gen w2)) = ms ++ [a]) by (rewrite (sv_pairs _ _ _ _ S2), (sv_pairs _ _ _ _ S1); exact P0).
  destruct (merge_ok w2 ms a d R2 M2 P2 (nodup_last ms a (bt_nodup _ _ _ _ B) F)) as (w3 & E3 & R3 & M3 & P3 & L3 & A3 & N3 & I3).
  rewrite E3. cbn [obind]. rewrite L2 in *. set (log1 := l ++ Created a d :: layer_calls a d (bl_layers b) ++ calls) in *.
  destruct (refine_ok (bl_refinements b) w3 a d R3) as (w4 & E4 & R4 & S4). rewrite E4. cbn [obind].
  destruct (smooth_ok w4 a d b R4) as (w5 & E5 & R5 & S5). rewrite E5. cbn [obind].
  unfold write. rewrite (rd_domain _ _ _ R5), (rd_live _ _ _ R5), Nat.eqb_refl. cbn [obind log wo_log].
  assert (L5 : wo_log w5 ++ [Written a d (fst (file_of b)) (snd (file_of b))] = log1 ++ snd (merge_calls merges log1 ms a) ++ final_calls a d b).
  { rewrite (af_log _ _ _ _ S5), (sv_log _ _ _ _ S4), L3. unfold final_calls. rewrite file_expected, <- !app_assoc. reflexivity. }
  rewrite L5. eexists. split; [reflexivity|]. constructor; cbn [wo_gen wo_dom wo_log log].
  - rewrite (af_meshes _ _ _ _ S5), (sv_meshes _ _ _ _ S4). exact M3.
  - rewrite (af_pairs _ _ _ _ S5), (sv_pairs _ _ _ _ S4). exact P3.
  - exact N3.
  - exact (rd_live _ _ _ R5).
  - rewrite L5. reflexivity.
  - intros c o C S.
    assert (X : gn_algo (wo_gen w2) AMeshing = Some o \/ c <> AMeshing \/ al_mesh o = a).
    { destruct C as [->| ->]; [|right; left; discriminate]. destruct (af_slot _ _ _ _ S5 _ o S) as [Y|Y]; [|auto]. destruct (sv_slot _ _ _ _ S4 _ o Y) as [Z|Z]; [|auto].
      rewrite A3 in Z. left. exact Z. }
    assert (Y : al_mesh o = a).
    { destruct C as [->| ->]; [|exact (call_slot _ _ _ _ _ _ E5 o S)]. destruct X as [X|[X|X]]; [|congruence|exact X]. exact (mesh_slot _ _ _ _ E2 o X). }
    rewrite Y. exact I3.
Qed.

Lemma run_ok bs : forall w ms d l s, between w ms d l ->
  match expected_run ms d l bs s with
  | None => run w (map Some bs) s = Throw
  | Some (ms', l', s') => exists w', run w (map Some bs) s = Ok (w', s') /\ gn_meshes (wo_gen w') = ms' /\ wo_log w' = l'
  end.
Proof.
  induction bs as [|b bs IH]; intros w ms d l s B; cbn [map AppRunModel.run AppRunSpec.expected_run].
  - exists w. split; [reflexivity|]. split; apply B.
  - pose proof (block_ok w ms d l b B) as K. cbv zeta in K. destruct (mesh_calls _ _ b) as [calls|].
    + destruct K as (w' & E & B'). rewrite E. cbn [obind fst snd]. destruct (merge_calls _ _ _ _) as [ms' mg]. cbn [fst snd] in *.
      exact (IH w' ms' _ _ _ B').
    + rewrite K. reflexivity.
Qed.
Lemma start_between : between start [] None [].
Proof. constructor; try reflexivity; [constructor|]. intros c o _ X. discriminate. Qed.

(* C51: a run on any list of blocks makes the calls of the specification, every one of
   them on the mesh and on the domain of its own block, and stops with an exception at a block
   with an unknown algorithm; no call reaches a dead mesh or domain *)
Theorem C51_calls bs :
  match expected_run [] None [] bs true with
  | None => run start (map Some bs) true = Throw
  | Some (ms, l, s) => exists w, run start (map Some bs) true = Ok (w, s) /\ gn_meshes (wo_gen w) = ms /\ wo_log w = l
  end.
Proof. apply run_ok. exact start_between. Qed.
(* C51: the same without the calls *)
Theorem C51_no_ub bs : run start bs true <> UB.
Proof.
  assert (G : forall bs w ms d l s, between w ms d l -> run w bs s <> UB).
  { clear bs. induction bs as [|[b|] bs IH]; intros w ms d l s B; cbn [AppRunModel.run]; [discriminate| |discriminate].
    pose proof (block_ok w ms d l b B) as K. cbv zeta in K. destruct (mesh_calls _ _ b) as [calls|].
    - destruct K as (w' & E & B'). rewrite E. cbn [obind fst snd]. exact (IH _ _ _ _ _ B').
    - rewrite K. discriminate. }
  exact (G bs _ _ _ _ _ start_between).
Qed.
(* C51: the program reports success iff every completeness check did *)
Definition failed_check (e : event) : bool := match e with Checked _ _ c => negb c | _ => false end.
Lemma quiet_calls a d b calls : mesh_calls a d b = Some calls -> forallb (fun e => negb (failed_check e)) (layer_calls a d (bl_layers b) ++ calls ++ final_calls a d b) = true.
Proof.
  intros M. rewrite !forallb_app, !andb_true_iff. repeat split.
  - unfold layer_calls. induction (bl_layers b); [reflexivity|]. cbn. assumption.
  - unfold mesh_calls in M. destruct (String.eqb _ _); [injection M as <-; reflexivity|]. destruct (String.eqb _ _); [injection M as <-; reflexivity|discriminate].
  - unfold final_calls. rewrite forallb_app. apply andb_true_iff. split; [|reflexivity]. induction (bl_refinements b); [reflexivity|]. cbn. assumption.
Qed.
Lemma expected_success bs : forall ms d l s ms' l' s', expected_run ms d l bs s = Some (ms', l', s') ->
  s = forallb (fun e => negb (failed_check e)) l -> s' = forallb (fun e => negb (failed_check e)) l'.
Proof.
  induction bs as [|b bs IH]; intros ms d l s ms' l' s' E S; cbn [AppRunSpec.expected_run] in E; [injection E as _ <- <-; exact S|].
  destruct (mesh_calls _ _ b) as [calls|] eqn:M; [|discriminate]. destruct (merge_calls _ _ _ _) as [ms1 mg] eqn:G. apply (IH _ _ _ _ _ _ _ E).
  apply quiet_calls in M. rewrite !forallb_app, !andb_true_iff in M. destruct M as (M1 & M2 & M3).
  assert (MG : forallb (fun e => negb (failed_check e)) mg = true).
  { unfold merge_calls in G. destruct ms; injection G as _ <-; reflexivity. }
  rewrite !forallb_app. cbn [forallb failed_check]. rewrite !forallb_app, M1, M2, M3, MG, negb_involutive, !andb_true_r, S. cbn. rewrite ?andb_true_r. reflexivity.
Qed.
Theorem C51_success bs w s : run start (map Some bs) true = Ok (w, s) -> (s = true <-> forall a d, ~ In (Checked a d false) (wo_log w)).
Proof.
  intros E. pose proof (C51_calls bs) as C. destruct (expected_run [] None [] bs true) as [[[ms l] s']|] eqn:X; [|rewrite C in E; discriminate].
  destruct C as (w' & E' & _ & L). rewrite E' in E. injection E as -> ->. rewrite L. rewrite (expected_success bs _ _ _ _ _ _ _ X eq_refl), forallb_forall. split.
  - intros H a d I. specialize (H _ I). discriminate.
  - intros H e I. destruct e; try reflexivity. cbn. destruct complete0; [reflexivity|]. exfalso. exact (H _ _ I).
Qed.
End Run.

(* ---- C51: a case with address reuse ---- *)
(* an allocator that gives address 0 again as soon as it is free *)
Definition reuse (_ : list event) (l : list nat) : nat := if existsb (Nat.eqb 0) l then S (list_max l) else 0.
Lemma reuse_fresh lg l : ~ In (reuse lg l) l.
Proof.
  unfold reuse. destruct (existsb (Nat.eqb 0) l) eqn:E.
  - intros I. pose proof (proj1 (list_max_le l (list_max l)) (Nat.le_refl _)) as F. rewrite Forall_forall in F. apply F in I. lia.
  - intros I. assert (X : existsb (Nat.eqb 0) l = true) by (apply has_eqb; exact I). congruence.
Qed.

Definition blk (p alg : string) (ls : list layer) (n : nat) : block := BL p "vtu" ls alg n 2 true.
Definition wall : layer := LY (V2 0 0) (V2 1 0) 3 (1#10) 1.
Definition three : list block := [blk "a" "Triangulation" [wall] 0; blk "b" "Tri-to-Quad" [] 1; blk "c" "Triangulation" [] 0].
(* the second mesh takes over the first, which is deleted; the third is made where the
   first was *)
Example C51_calls_case : exists w, run (fun _ _ _ => true) (fun _ _ => true) reuse reuse start (map Some three) true = Ok (w, true) /\
  gn_meshes (wo_gen w) = [0] /\ wo_log w =
    [Created 0 0; Layered 0 0 (Layer wall); Triangulated 0 0; Smoothed 0 0 (Smoothing true) 2; Written 0 0 Vtu "a.vtu"; Checked 0 0 true;
     Created 1 1; Triangulated 1 1; Converted 1; Merged 1 0 true; Refined 1; Smoothed 1 1 (Smoothing true) 2; Written 1 1 Vtu "b.vtu"; Checked 1 1 true;
     Created 0 0; Triangulated 0 0; Merged 0 1 true; Smoothed 0 0 (Smoothing true) 2; Written 0 0 Vtu "c.vtu"; Checked 0 0 true].
Proof. eexists. split; [vm_compute; reflexivity|]. split; reflexivity. Qed.
Example C51_calls_throws : run (fun _ _ _ => true) (fun _ _ => true) reuse reuse start (map Some [blk "a" "Triangulation" [] 0; blk "b" "Paving" [wall] 0]) true = Throw.
Proof. reflexivity. Qed.
Example C51_success_case : exists w, run (fun _ _ _ => true) (fun l _ => Nat.leb (List.length l) 5) reuse reuse start (map Some three) true = Ok (w, false) /\
  In (Checked 1 1 false) (wo_log w).
Proof. eexists. split; [vm_compute; reflexivity|]. cbn. auto 20. Qed.

(* ---- C52: the mesh of the whole run ---- *)
(* the elements of a block are not refined as often as asked: the refinement of a later
   block is applied to all that was merged into its mesh *)
Theorem C52_refined_refuted : exists adj bs w a n b, run (by_touching adj) (fun _ _ => true) reuse reuse start (map Some bs) true = Ok (w, true) /\
  In (0, n) (part_of (replay 0 [] (wo_log w)) a) /\ nth_error bs 0 = Some b /\ bl_refinements b < n.
Proof.
  exists (fun _ _ => true), three. eexists. exists 0, 1. eexists. split; [vm_compute; reflexivity|].
  split; [vm_compute; auto|]. split; [reflexivity|]. cbn. lia.
Qed.
(* three connected blocks, but two meshes remain: a new mesh is only merged with the first *)
Definition corner_adj (i j : nat) : bool := Nat.eqb (i + j) 2 && negb (Nat.eqb i j) || Nat.eqb (i + j) 3.
Theorem C52_unmerged_refuted : exists adj bs w, run (by_touching adj) (fun _ _ => true) reuse reuse start (map Some bs) true = Ok (w, true) /\
  (forall i, i < List.length bs -> linked adj (List.length bs) 0 i) /\ 1 < List.length (gn_meshes (wo_gen w)).
Proof.
  exists corner_adj, three. eexists. split; [vm_compute; reflexivity|]. split; [|cbn; lia].
  cbn. intros i L. destruct i as [|[|[|i]]]; [apply linked_refl| | |lia].
  - apply linked_step with (j := 2); [lia|left; reflexivity|]. apply linked_step with (j := 1); [lia|left; reflexivity|]. apply linked_refl.
  - apply linked_step with (j := 2); [lia|left; reflexivity|]. apply linked_refl.
Qed.

(* ---- C52: what remains ---- *)
Fixpoint checks (l : list event) : nat := match l with [] => 0 | Checked _ _ _ :: r => S (checks r) | _ :: r => checks r end.
Lemma replay_app l1 : forall i p l2, replay i p (l1 ++ l2) = replay (i + checks l1) (replay i p l1) l2.
Proof.
  induction l1 as [|e l1 IH]; intros i p l2; [cbn; rewrite Nat.add_0_r; reflexivity|].
  destruct e; cbn [app replay checks]; try apply IH; [destruct ok; apply IH|]. rewrite IH. f_equal. lia.
Qed.
Lemma checks_app l1 l2 : checks (l1 ++ l2) = checks l1 + checks l2.
Proof. induction l1 as [|e l1 IH]; [reflexivity|]. destruct e; cbn; rewrite IH; reflexivity. Qed.
Definition plain_event (e : event) : bool := match e with Layered _ _ _ | Triangulated _ _ | Converted _ | Smoothed _ _ _ _ | Written _ _ _ _ => true | _ => false end.
Lemma replay_plain l : forallb plain_event l = true -> (forall i p, replay i p l = p) /\ checks l = 0.
Proof.
  induction l as [|e l IH]; [split; reflexivity|]. cbn [forallb]. intros H. apply andb_true_iff in H. destruct H as [H1 H2]. destruct (IH H2) as [A B].
  destruct e; try discriminate; cbn; auto.
Qed.
Lemma plain_calls a d b calls : mesh_calls a d b = Some calls -> forallb plain_event (layer_calls a d (bl_layers b) ++ calls) = true.
Proof.
  intros M. rewrite forallb_app. apply andb_true_iff. split.
  - unfold layer_calls. induction (bl_layers b); [reflexivity|]. cbn. assumption.
  - unfold mesh_calls in M. destruct (String.eqb _ _); [injection M as <-; reflexivity|]. destruct (String.eqb _ _); [injection M as <-; reflexivity|discriminate].
Qed.
Definition bump (n : nat) (ps : list (nat * nat)) : list (nat * nat) := map (fun x => (fst x, n + snd x)) ps.
Lemma replay_refined n : forall i a ps, replay i [(a, ps)] (repeat (Refined a) n) = [(a, bump n ps)].
Proof.
  induction n as [|n IH]; intros i a ps; cbn [repeat replay].
  - unfold bump. f_equal. f_equal. induction ps as [|[x y] ps IHp]; [reflexivity|]. cbn. f_equal. exact IHp.
  - unfold part_of, drop. cbn [find filter fst snd]. rewrite Nat.eqb_refl. cbn [negb snd]. rewrite IH. unfold bump. rewrite map_map. f_equal. f_equal.
    apply map_ext. intros x. cbn. f_equal. lia.
Qed.
Lemma checks_refined n a : checks (repeat (Refined a) n) = 0.
Proof. induction n; [reflexivity|exact IHn]. Qed.

(* the log of a run whose blocks were all merged: one mesh [a] made of the parts [ps] *)
Definition whole (l : list event) (ms : list nat) (i : nat) (ps : list (nat * nat)) : Prop :=
  checks l = i /\ match i with O => ms = [] /\ ps = [] /\ replay 0 [] l = [] | S _ => exists a, ms = [a] /\ replay 0 [] l = [(a, ps)] end.

Section Whole.
Variable adj : nat -> nat -> bool.
Variable complete : list event -> nat -> bool.
Variable new_address new_domain : list event -> list nat -> nat.
Hypothesis fresh_mesh : forall l used, ~ In (new_address l used) used.
Notation run := (run (by_touching adj) complete new_address new_domain).
Notation expected_run := (expected_run (by_touching adj) complete new_address new_domain).

Lemma block_whole l ms i ps b d calls c : whole l ms i ps -> (forall k, k < i -> exists n, In (k, n) ps) ->
  (0 < i -> exists k, k < i /\ adj i k = true) ->
  let a := new_address l ms in mesh_calls a d b = Some calls ->
  let log1 := l ++ Created a d :: layer_calls a d (bl_layers b) ++ calls in
  let (ms', mg) := merge_calls (by_touching adj) log1 ms a in
  ms' = [a] /\ whole ((log1 ++ mg ++ final_calls a d b) ++ [Checked a d c]) [a] (S i) (bump (bl_refinements b) ((i, 0) :: ps)).
Proof.
  intros W K A a M. cbv zeta. destruct (replay_plain _ (plain_calls _ _ _ _ M)) as [P1 P2]. set (quiet := layer_calls a d (bl_layers b) ++ calls) in *.
  destruct W as [C W]. set (log1 := l ++ Created a d :: quiet). assert (C1 : checks log1 = i) by (unfold log1; rewrite checks_app; cbn; rewrite P2; lia).
  assert (FIN : forall mg, checks mg = 0 -> replay i (replay 0 [] log1) mg = [(a, (i, 0) :: ps)] ->
    whole ((log1 ++ mg ++ final_calls a d b) ++ [Checked a d c]) [a] (S i) (bump (bl_refinements b) ((i, 0) :: ps))).
  { intros mg CM RM. split.
    - unfold final_calls. rewrite !checks_app, C1, CM, checks_refined. cbn. lia.
    - exists a. split; [reflexivity|]. rewrite replay_app. cbn [replay]. unfold final_calls. rewrite !replay_app. cbn [Nat.add]. rewrite C1, CM, Nat.add_0_r, RM, replay_refined. reflexivity. }
  assert (FA : ~ In a ms) by apply fresh_mesh. clearbody a. unfold merge_calls. destruct i as [|i].
  - destruct W as (-> & -> & R). split; [reflexivity|]. apply (FIN []); [reflexivity|]. cbn [replay]. unfold log1. rewrite replay_app, R. cbn [replay drop filter]. rewrite P1, C. reflexivity.
  - destruct W as (o & -> & R). assert (NO : o <> a) by (intros ->; apply FA; left; reflexivity).
    assert (R1 : replay 0 [] log1 = [(a, [(S i, 0)]); (o, ps)]).
    { unfold log1. rewrite replay_app, R. cbn [replay]. rewrite P1, C. unfold drop. cbn [filter fst]. destruct (Nat.eqb_spec o a); [contradiction|]. reflexivity. }
    assert (PO : forall q, part_of [(a, q); (o, ps)] o = ps).
    { intros q. unfold part_of. cbn [find fst]. destruct (Nat.eqb_spec a o); [congruence|]. rewrite Nat.eqb_refl. reflexivity. }
    assert (PA : forall q, part_of [(a, q); (o, ps)] a = q) by (intros q; unfold part_of; cbn [find fst]; rewrite Nat.eqb_refl; reflexivity).
    assert (T : by_touching adj log1 a o = true).
    { unfold by_touching, touching. rewrite R1, PO, PA. cbn [existsb fst]. rewrite orb_false_r. apply existsb_exists. destruct (A ltac:(lia)) as (k & Lk & Ak).
      destruct (K k Lk) as [n Ik]. exists (k, n). split; [exact Ik|exact Ak]. }
    rewrite T. split; [reflexivity|]. apply FIN; [reflexivity|]. rewrite R1. cbn [replay]. rewrite PO, PA. unfold drop. cbn [filter fst app]. rewrite Nat.eqb_refl.
    destruct (Nat.eqb_spec o a); [contradiction|]. cbn [negb filter fst]. rewrite Nat.eqb_refl. reflexivity.
Qed.

(* blocks done so far and the number of refinements of their elements *)
Definition counted (done : list block) (ps : list (nat * nat)) : Prop :=
  forall k n, In (k, n) ps <-> k < List.length done /\ n = list_sum (map bl_refinements (skipn k done)).
Lemma counted_step done ps b : counted done ps -> counted (done ++ [b]) (bump (bl_refinements b) ((List.length done, 0) :: ps)).
Proof.
  intros C k n. unfold bump. rewrite in_map_iff, app_length. cbn [List.length]. split.
  - intros ([k' n'] & E & I). cbn in E. injection E as <- <-. destruct I as [I|I].
    + injection I as <- <-. split; [lia|]. rewrite skipn_app, skipn_all, Nat.sub_diag. cbn. reflexivity.
    + apply C in I. destruct I as [L ->]. split; [lia|]. rewrite skipn_app. replace (k' - List.length done) with 0 by lia. cbn [skipn]. rewrite map_app, list_sum_app. cbn. lia.
  - intros [L ->]. destruct (Nat.eq_dec k (List.length done)) as [->|N].
    + exists (List.length done, 0). split; [|left; reflexivity]. rewrite skipn_app, skipn_all, Nat.sub_diag. cbn. reflexivity.
    + exists (k, list_sum (map bl_refinements (skipn k done))). split; [|right; apply C; split; [lia|reflexivity]].
      cbn. f_equal. rewrite skipn_app. replace (k - List.length done) with 0 by lia. cbn [skipn]. rewrite map_app, list_sum_app. cbn. lia.
Qed.
Lemma run_whole bs : forall done l ms d s ps ms' l' s', whole l ms (List.length done) ps -> counted done ps ->
  (forall i, List.length done <= i < List.length (done ++ bs) -> 0 < i -> exists k, k < i /\ adj i k = true) ->
  expected_run ms d l bs s = Some (ms', l', s') -> exists ps', whole l' ms' (List.length (done ++ bs)) ps' /\ counted (done ++ bs) ps'.
Proof.
  induction bs as [|b bs IH]; intros done l ms d s ps ms' l' s' W C A E; cbn [AppRunSpec.expected_run] in E.
  - injection E as <- <- _. rewrite app_nil_r. exists ps. auto.
  - destruct (mesh_calls _ _ b) as [calls|] eqn:M; [|discriminate].
    pose proof (block_whole l ms (List.length done) ps b (new_domain l (match d with Some d => [d] | None => [] end)) calls) as B. cbv zeta in B. specialize (fun c => B c W).
    assert (K : forall k, k < List.length done -> exists n, In (k, n) ps) by (intros k Lk; eexists; apply C; split; [exact Lk|reflexivity]).
    specialize (fun c => B c K). assert (A0 : 0 < List.length done -> exists k, k < List.length done /\ adj (List.length done) k = true).
    { intros L. apply A; [|exact L]. rewrite app_length. cbn [List.length]. lia. }
    specialize (fun c => B c A0 M). destruct (merge_calls _ _ _ _) as [ms1 mg].
    match type of E with context [Checked _ _ ?c] => destruct (B c) as [-> W'] end.
    replace (done ++ b :: bs) with ((done ++ [b]) ++ bs) by (rewrite <- app_assoc; reflexivity).
    eapply IH; [| |  |exact E].
    + rewrite app_length. cbn [List.length]. rewrite Nat.add_1_r. exact W'.
    + apply counted_step. exact C.
    + intros i L. apply A. rewrite <- app_assoc in L. cbn [app] in L. rewrite !app_length in *. cbn [List.length] in *. lia.
Qed.

(* C52: if every block but the first shares boundary edges with an earlier one, one mesh remains;
   it is made of all blocks, and the elements of each are refined as often as its own block
   and all later blocks ask for *)
Theorem C52_whole_partial bs w s : bs <> [] -> (forall i, 0 < i < List.length bs -> exists k, k < i /\ adj i k = true) ->
  run start (map Some bs) true = Ok (w, s) ->
  exists a, gn_meshes (wo_gen w) = [a] /\
    forall k n, In (k, n) (part_of (replay 0 [] (wo_log w)) a) <-> k < List.length bs /\ n = list_sum (map bl_refinements (skipn k bs)).
Proof.
  intros NE A R. pose proof (C51_calls (by_touching adj) complete new_address new_domain fresh_mesh bs) as C.
  destruct (expected_run [] None [] bs true) as [[[ms l] s']|] eqn:E; [|rewrite C in R; discriminate]. destruct C as (w' & R' & M & L). rewrite R' in R. injection R as -> ->.
  destruct (run_whole bs [] [] [] None true [] ms l s) as (ps & W & C).
  - split; [reflexivity|]. cbn. auto.
  - intros k n. split; [intros []|intros [X _]; inversion X].
  - intros i Li Pi. apply A. cbn in Li. lia.
  - exact E.
  - destruct W as [_ W]. cbn [app] in W. destruct bs as [|b bs]; [contradiction|]. cbn [List.length] in W. destruct W as (a & -> & W).
    exists a. split; [exact M|]. rewrite L, W. unfold part_of. cbn [find fst]. rewrite Nat.eqb_refl. exact C.
Qed.
(* C52: if only the last block asks for refinements, all elements are refined as often as it says *)
Theorem C52_last_partial bs b w s : (forall x, In x bs -> bl_refinements x = 0) -> (forall i, 0 < i <= List.length bs -> exists k, k < i /\ adj i k = true) ->
  run start (map Some (bs ++ [b])) true = Ok (w, s) ->
  exists a, gn_meshes (wo_gen w) = [a] /\
    forall k n, In (k, n) (part_of (replay 0 [] (wo_log w)) a) -> n = bl_refinements b.
Proof.
  intros Z A R. destruct (C52_whole_partial (bs ++ [b]) w s) as (a & M & P); [destruct bs; discriminate| |exact R|].
  - intros i Li. apply A. rewrite app_length in Li. cbn in Li. lia.
  - exists a. split; [exact M|]. intros k n I. apply P in I. destruct I as [L ->]. rewrite app_length in L. cbn in L. rewrite skipn_app.
    replace (k - List.length bs) with 0 by lia. cbn [skipn]. rewrite map_app, list_sum_app. cbn.
    assert (Y : forall l, (forall x, In x l -> In x bs) -> list_sum (map bl_refinements l) = 0).
    { intros l. induction l as [|x l IH]; intros H; [reflexivity|]. cbn. rewrite (Z x (H x (or_introl eq_refl))). apply IH. intros y Iy. apply H. right. exact Iy. }
    rewrite (Y (skipn k bs)); [lia|]. intros x I. rewrite <- (firstn_skipn k bs). apply in_or_app. right. exact I.
Qed.
End Whole.

Example C52_whole_case : (forall i, 0 < i < List.length three -> exists k, k < i /\ Nat.eqb i (S k) = true) /\
  exists w, run (by_touching (fun i k => Nat.eqb i (S k))) (fun _ _ => true) reuse reuse start (map Some three) true = Ok (w, true) /\
    gn_meshes (wo_gen w) = [0] /\ replay 0 [] (wo_log w) = [(0, [(2, 0); (1, 1); (0, 1)])].
Proof.
  split; [intros i L; exists (pred i); split; [lia|]; apply Nat.eqb_eq; lia|]. eexists. split; [vm_compute; reflexivity|]. split; vm_compute; reflexivity.
Qed.

Print Assumptions C51_calls.
Print Assumptions C51_no_ub.
Print Assumptions C51_success.
Print Assumptions C52_refined_refuted.
Print Assumptions C52_unmerged_refuted.
Print Assumptions C52_whole_partial.
Print Assumptions C52_last_partial.
