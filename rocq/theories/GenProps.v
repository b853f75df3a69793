(* Property C39: the algorithm objects of the mesh generator. *)
From Coq Require Import Lia Permutation.
From Verif Require Import Base GenModel GenSpec.

Lemma akind_eqb_eq a b : akind_eqb a b = true <-> a = b.
Proof. destruct a, b; cbn; split; congruence. Qed.
Lemma acat_eqb_eq a b : acat_eqb a b = true <-> a = b.
Proof. destruct a, b; cbn; split; congruence. Qed.

Section Props.
Variable settings : Type.
Variable defaults : akind -> settings.
Notation gen := (gen settings).
Notation gop := (gop settings).
Notation access := (access settings defaults).
Notation gstep := (gstep settings defaults).
Notation grun := (grun settings defaults).
Notation expected := (expected settings defaults).
Notation made_for := (made_for settings).
Notation created := (created settings).

(* ---- one request ---- *)
(* The object is of the requested kind and bound to the requested address. *)
Theorem C39_bound g k a g' o : access g k a = Ok (g', o) -> al_kind o = k /\ al_mesh o = a /\ gn_algo g' (category k) = Some o.
Proof.
  unfold GenModel.access. intros H.
  assert (B : match get_domain g a with
              | None => Throw
              | Some d => let o := AL k a d (defaults k) in Ok (put_algo g o, o)
              end = Ok (g', o) -> al_kind o = k /\ al_mesh o = a /\ gn_algo g' (category k) = Some o).
  { destruct (get_domain g a) as [d|]; [|discriminate]. intros E. injection E as <- <-. cbn.
    rewrite (proj2 (acat_eqb_eq _ _) eq_refl). auto. }
  destruct (gn_algo g (category k)) as [p|] eqn:S; [|exact (B H)].
  destruct (akind_eqb (al_kind p) k && Nat.eqb (al_mesh p) a) eqn:E; [|exact (B H)].
  apply andb_true_iff in E. destruct E as [E1 E2]. apply akind_eqb_eq in E1. apply Nat.eqb_eq in E2. injection H as <- <-. auto.
Qed.

(* ---- histories ---- *)
Record fits (h : list gop) (g : gen) : Prop := {
  ft_live : forall a d, In (a, d) (gn_pairs g) -> made_for h a = Some d;
  ft_slot : forall k a, match gn_algo g (category k) with
    | Some o => if akind_eqb (al_kind o) k && Nat.eqb (al_mesh o) a
                then al_set o = expected h k a /\ made_for h a = Some (al_dom o)
                else expected h k a = defaults k
    | None => expected h k a = defaults k
    end
}.

Lemma get_domain_in (g : gen) a d : get_domain g a = Some d -> In (a, d) (gn_pairs g).
Proof.
  unfold get_domain. destruct (find _ (gn_pairs g)) as [[b e]|] eqn:F; [|discriminate]. cbn. intros E. injection E as <-.
  apply find_some in F. destruct F as [F1 F2]. cbn in F2. apply Nat.eqb_eq in F2. subst. exact F1.
Qed.
Lemma erase_in {A} f (l : list A) x : In x (erase_first f l) -> In x l.
Proof. induction l as [|y l IH]; cbn; [tauto|]. destruct (f y); cbn; tauto. Qed.
Lemma merge_fields (g : gen) r d ok : gn_algo (fst (merge_meshes g r d ok)) = gn_algo g /\
  forall p, In p (gn_pairs (fst (merge_meshes g r d ok))) -> In p (gn_pairs g).
Proof.
  unfold merge_meshes. destruct (get_domain g r); [|cbn; auto]. destruct (get_domain g d); [|cbn; auto]. destruct ok; [|cbn; auto].
  destruct (existsb _ _); cbn; [|auto]. split; [reflexivity|]. intros p. apply erase_in.
Qed.
Lemma slot_dom (h : list gop) g : fits h g -> forall k o, gn_algo g (category k) = Some o -> al_kind o = k -> made_for h (al_mesh o) = Some (al_dom o).
Proof.
  intros F k o S K. pose proof (ft_slot _ _ F k (al_mesh o)) as X. rewrite S in X. rewrite (proj2 (akind_eqb_eq _ _) K), Nat.eqb_refl in X. cbn [andb] in X. apply X.
Qed.

Lemma step_fits h g o g' x : fits h g -> gstep g o = Ok (g', x) ->
  (forall a d, o = GNew a d -> made_for h a = None) -> fits (o :: h) g'.
Proof.
  intros F H N. destruct o as [a d|r dn ok|k a f]; cbn [GenModel.gstep] in H.
  - injection H as <- _. specialize (N a d eq_refl). constructor.
    + cbn [new_mesh gn_pairs GenSpec.made_for]. intros b e Hb. apply in_app_or in Hb. destruct Hb as [Hb|[Hb|[]]].
      * apply (ft_live _ _ F) in Hb. destruct (Nat.eqb_spec a b); [subst; congruence|exact Hb].
      * injection Hb as <- <-. rewrite Nat.eqb_refl. reflexivity.
    + intros k b. pose proof (ft_slot _ _ F k b) as X. cbn [new_mesh gn_algo GenSpec.expected GenSpec.made_for] in *.
      destruct (gn_algo g (category k)) as [o|]; [|exact X]. destruct (_ && _); [|exact X]. destruct X as [X1 X2]. split; [exact X1|].
      destruct (Nat.eqb_spec a b); [subst; congruence|exact X2].
  - injection H as <- _. destruct (merge_fields g r dn ok) as [A P]. constructor.
    + intros b e Hb. apply P in Hb. apply (ft_live _ _ F) in Hb. exact Hb.
    + intros k b. rewrite A. pose proof (ft_slot _ _ F k b) as X. cbn [GenSpec.expected GenSpec.made_for]. exact X.
  - destruct (access g k a) as [[g1 o]| |] eqn:E; cbn [obind fst snd] in H; try discriminate. injection H as <- _.
    assert (E0 := E). apply C39_bound in E0. destruct E0 as (K & M & _).
    assert (OLD : gn_pairs g1 = gn_pairs g /\ (forall c, c <> category k -> gn_algo g1 c = gn_algo g c) /\
              al_set o = expected h k a /\ made_for h a = Some (al_dom o)).
    { unfold GenModel.access in E. pose proof (ft_slot _ _ F k a) as X.
      assert (B : expected h k a = defaults k -> match get_domain g a with
              | None => Throw
              | Some d => let o := AL k a d (defaults k) in Ok (put_algo g o, o)
              end = Ok (g1, o) -> gn_pairs g1 = gn_pairs g /\ (forall c, c <> category k -> gn_algo g1 c = gn_algo g c) /\
              al_set o = expected h k a /\ made_for h a = Some (al_dom o)).
      { intros X'. destruct (get_domain g a) as [d|] eqn:D; [|discriminate]. intros Y. injection Y as <- <-. cbn. split; [reflexivity|].
        split; [intros c C; destruct (acat_eqb c (category k)) eqn:Z; [apply acat_eqb_eq in Z; contradiction|reflexivity]|]. split; [symmetry; exact X'|].
        apply (ft_live _ _ F). apply get_domain_in. exact D. }
      destruct (gn_algo g (category k)) as [p|]; [|exact (B X E)].
      destruct (akind_eqb (al_kind p) k && Nat.eqb (al_mesh p) a); [|exact (B X E)]. injection E as <- <-. destruct X as [X1 X2]. auto. }
    destruct OLD as (PA & CA & SE & DO). constructor.
    + cbn [configure put_algo gn_pairs GenSpec.made_for]. rewrite PA. apply (ft_live _ _ F).
    + intros k' b. cbn [configure put_algo gn_algo al_kind al_mesh al_set al_dom GenSpec.expected GenSpec.made_for]. rewrite K, M.
      destruct (acat_eqb (category k') (category k)) eqn:C.
      * apply acat_eqb_eq in C. rewrite <- C. rewrite (proj2 (acat_eqb_eq _ _) eq_refl). cbn [al_kind al_mesh al_set al_dom].
        destruct (akind_eqb k k' && Nat.eqb a b) eqn:Z; [|reflexivity].
        apply andb_true_iff in Z. destruct Z as [Z1 Z2]. apply akind_eqb_eq in Z1. apply Nat.eqb_eq in Z2. subst k' b. rewrite SE. auto.
      * assert (C' : category k' <> category k) by (intros Y; apply acat_eqb_eq in Y; congruence). rewrite (CA _ C').
        destruct (acat_eqb (category k) (category k')) eqn:C2; [apply acat_eqb_eq in C2; congruence|]. exact (ft_slot _ _ F k' b).
Qed.

Lemma made_in h a d : made_for h a = Some d -> In a (created h).
Proof.
  induction h as [|o h IH]; cbn; [discriminate|]. destruct o as [b e|r dn ok|k b f]; cbn; auto.
  destruct (Nat.eqb_spec b a); [left; assumption|auto].
Qed.
Lemma run_fits os : forall h g g', fits h g -> grun g os = Ok g' -> NoDup (created (rev os ++ h)) -> fits (rev os ++ h) g'.
Proof.
  induction os as [|o os IH]; intros h g g' F H N; cbn [GenModel.grun rev app] in *.
  - injection H as <-. exact F.
  - destruct (gstep g o) as [[g1 x]| |] eqn:E; cbn [obind fst] in H; try discriminate. rewrite <- app_assoc in *. cbn [app] in *.
    apply (IH (o :: h) g1 g'); [|exact H|exact N]. apply (step_fits h g o g1 x F E). intros a d ->.
    destruct (made_for h a) as [e|] eqn:M; [|reflexivity]. exfalso. apply made_in in M. unfold GenSpec.created in N. rewrite flat_map_app in N. cbn [flat_map app] in N.
    apply NoDup_remove_2 in N. apply N. apply in_or_app. right. exact M.
Qed.
Lemma empty_fits : fits [] empty_gen.
Proof. constructor; [intros a d []|intros k a; reflexivity]. Qed.

(* ---- which meshes exist ---- *)
Notation alive := (GenSpec.alive settings).
Lemma get_domain_map (g : gen) a : get_domain g a = None <-> ~ In a (map fst (gn_pairs g)).
Proof.
  unfold get_domain. induction (gn_pairs g) as [|[b e] l IH]; cbn; [tauto|]. destruct (Nat.eqb_spec b a) as [->|N].
  - cbn. split; [discriminate|intros H; exfalso; apply H; left; reflexivity].
  - rewrite IH. split; [intros H [X|X]; [contradiction|exact (H X)]|intros H X; apply H; right; exact X].
Qed.
Lemma erase_fst d (l : list (nat * nat)) : map fst (erase_first (fun p => Nat.eqb (fst p) d) l) = erase_first (Nat.eqb d) (map fst l).
Proof. induction l as [|[a e] l IH]; [reflexivity|]. cbn. rewrite Nat.eqb_sym. destruct (Nat.eqb d a); [reflexivity|]. cbn. rewrite IH. reflexivity. Qed.
Lemma erase_nodup d l : NoDup l -> erase_first (Nat.eqb d) l = filter (fun a => negb (Nat.eqb d a)) l.
Proof.
  induction 1 as [|a l N H IH]; [reflexivity|]. cbn. destruct (Nat.eqb_spec d a) as [->|E]; cbn; [|rewrite IH; reflexivity].
  clear H IH. induction l as [|b l IHl]; [reflexivity|]. cbn. destruct (Nat.eqb_spec a b) as [->|E]; [exfalso; apply N; left; reflexivity|].
  cbn. rewrite <- IHl; [reflexivity|]. intros X. apply N. right. exact X.
Qed.
Lemma has_eqb a l : existsb (Nat.eqb a) l = true <-> In a l.
Proof. rewrite existsb_exists. split; [intros (b & H & E); apply Nat.eqb_eq in E; subst; exact H|intros H; exists a; split; [exact H|apply Nat.eqb_refl]]. Qed.
Record census (h : list gop) (g : gen) : Prop := {
  cs_pairs : map fst (gn_pairs g) = gn_meshes g;
  cs_alive : gn_meshes g = rev (alive h);
  cs_nodup : NoDup (alive h)
}.
Lemma alive_made h a : In a (alive h) -> In a (created h).
Proof.
  induction h as [|o h IH]; cbn; [tauto|]. destruct o as [b e|r d []|k b f]; cbn; [intros [H|H]; auto| |exact IH|exact IH].
  destruct (_ && _); [|exact IH]. intros H. apply filter_In in H. apply IH. apply H.
Qed.
Lemma filter_rev' {A} (f : A -> bool) l : filter f (rev l) = rev (filter f l).
Proof. induction l as [|x l IH]; [reflexivity|]. cbn. rewrite filter_app, IH. cbn. destruct (f x); cbn; [reflexivity|rewrite app_nil_r; reflexivity]. Qed.
Lemma existsb_rev' {A} (f : A -> bool) l : existsb f (rev l) = existsb f l.
Proof.
  apply eq_true_iff_eq. rewrite !existsb_exists. split; intros (x & H & E); exists x; (split; [|exact E]); [apply in_rev; exact H|apply in_rev in H; exact H].
Qed.
Lemma known (h : list gop) g a : census h g -> match get_domain g a with Some _ => true | None => false end = existsb (Nat.eqb a) (alive h).
Proof.
  intros C. destruct (get_domain g a) as [e|] eqn:D.
  - symmetry. apply has_eqb. apply in_rev. rewrite <- (cs_alive _ _ C), <- (cs_pairs _ _ C). apply get_domain_in in D. exact (in_map fst _ _ D).
  - symmetry. apply not_true_is_false. intros H. apply has_eqb in H. apply get_domain_map in D. apply D.
    rewrite (cs_pairs _ _ C), (cs_alive _ _ C). apply in_rev in H. exact H.
Qed.
Lemma step_census h g o g' x : census h g -> gstep g o = Ok (g', x) -> (forall a d, o = GNew a d -> ~ In a (created h)) -> census (o :: h) g'.
Proof.
  intros C H N. destruct o as [a d|r dn ok|k a f]; cbn [GenModel.gstep] in H.
  - injection H as <- _. constructor; cbn [new_mesh gn_pairs gn_meshes GenSpec.alive].
    + rewrite map_app, (cs_pairs _ _ C). reflexivity.
    + cbn [rev]. rewrite (cs_alive _ _ C). reflexivity.
    + constructor; [intros Y; exact (N a d eq_refl (alive_made _ _ Y))|exact (cs_nodup _ _ C)].
  - injection H as <- _. assert (KR := known h g r C). assert (KD := known h g dn C). unfold merge_meshes.
    destruct ok; [|replace (alive (GMerge r dn false :: h)) with (alive h) in * by reflexivity].
    + destruct (get_domain g r); destruct (get_domain g dn); cbn [andb];
        try (constructor; cbn [GenSpec.alive fst]; [apply C| |]; rewrite <- KR, <- KD; cbn [andb]; apply C).
      assert (E : existsb (Nat.eqb dn) (gn_meshes g) = true) by (rewrite (cs_alive _ _ C), existsb_rev'; symmetry; exact KD).
      rewrite E. constructor; cbn [GenSpec.alive fst gn_pairs gn_meshes].
      * rewrite erase_fst, (cs_pairs _ _ C). reflexivity.
      * rewrite <- KR, <- KD. cbn [andb]. rewrite erase_nodup, (cs_alive _ _ C); [apply filter_rev'|].
        rewrite (cs_alive _ _ C). eapply Permutation_NoDup; [apply Permutation_rev|exact (cs_nodup _ _ C)].
      * rewrite <- KR, <- KD. cbn [andb]. apply NoDup_filter. exact (cs_nodup _ _ C).
    + destruct (get_domain g r); destruct (get_domain g dn); (constructor; cbn [GenSpec.alive fst]; apply C).
  - destruct (access g k a) as [[g1 o]| |] eqn:E; cbn [obind fst snd] in H; try discriminate. injection H as <- _.
    assert (P : gn_pairs g1 = gn_pairs g /\ gn_meshes g1 = gn_meshes g).
    { unfold GenModel.access in E.
      assert (B : match get_domain g a with None => Throw | Some d => let o := AL k a d (defaults k) in Ok (put_algo g o, o) end = Ok (g1, o) ->
        gn_pairs g1 = gn_pairs g /\ gn_meshes g1 = gn_meshes g).
      { destruct (get_domain g a); [|discriminate]. intros Y. injection Y as <- _. split; reflexivity. }
      destruct (gn_algo g (category k)) as [p|]; [|exact (B E)]. destruct (_ && _); [|exact (B E)]. injection E as <- _. split; reflexivity. }
    destruct P as [P1 P2]. constructor; cbn [configure put_algo gn_pairs gn_meshes GenSpec.alive]; rewrite ?P1, ?P2; apply C.
Qed.
Lemma run_census os : forall h g g', census h g -> grun g os = Ok g' -> NoDup (created (rev os ++ h)) -> census (rev os ++ h) g'.
Proof.
  induction os as [|o os IH]; intros h g g' F H N; cbn [GenModel.grun rev app] in *.
  - injection H as <-. exact F.
  - destruct (gstep g o) as [[g1 x]| |] eqn:E; cbn [obind fst] in H; try discriminate. rewrite <- app_assoc in *. cbn [app] in *.
    apply (IH (o :: h) g1 g'); [|exact H|exact N]. apply (step_census h g o g1 x F E). intros a d -> M.
    unfold GenSpec.created in N. rewrite flat_map_app in N. cbn [flat_map app] in N.
    apply NoDup_remove_2 in N. apply N. apply in_or_app. right. exact M.
Qed.
(* If no address is used twice, the generator keeps exactly the meshes that were made
   and not merged into another one, each with the domain it was made for. *)
Theorem C39_registered_partial os g : NoDup (created os) -> grun empty_gen os = Ok g ->
  gn_meshes g = rev (alive (rev os)) /\
  forall a, (In a (alive (rev os)) -> get_domain g a = made_for (rev os) a) /\ (~ In a (alive (rev os)) -> get_domain g a = None).
Proof.
  intros N R. assert (N' : NoDup (created (rev os ++ []))).
  { rewrite app_nil_r. unfold GenSpec.created in *. eapply Permutation_NoDup; [|exact N]. apply Permutation_flat_map. apply Permutation_rev. }
  assert (C : census (rev os ++ []) g) by (refine (run_census os [] empty_gen g _ R N'); constructor; [reflexivity|reflexivity|constructor]).
  assert (F : fits (rev os ++ []) g) by exact (run_fits os [] empty_gen g empty_fits R N').
  rewrite app_nil_r in *. split; [exact (cs_alive _ _ C)|]. intros a. split; intros H.
  - destruct (get_domain g a) as [d|] eqn:D; [symmetry; apply (ft_live _ _ F); apply get_domain_in; exact D|].
    exfalso. apply get_domain_map in D. apply D. rewrite (cs_pairs _ _ C), (cs_alive _ _ C). apply in_rev in H. exact H.
  - apply get_domain_map. rewrite (cs_pairs _ _ C), (cs_alive _ _ C). intros X. apply in_rev in X. exact (H X).
Qed.

(* If no address is used twice, every request that succeeds gives an object of the requested kind for
   the requested mesh and its domain, with exactly the settings expected from the
   calls before. *)
Theorem C39_settings_partial os g k a g' o : NoDup (created os) -> grun empty_gen os = Ok g -> access g k a = Ok (g', o) ->
  al_kind o = k /\ al_mesh o = a /\ al_set o = expected (rev os) k a /\ made_for (rev os) a = Some (al_dom o).
Proof.
  intros N R E. assert (F : fits (rev os) g).
  { rewrite <- (app_nil_r (rev os)). apply (run_fits os [] empty_gen g empty_fits R). rewrite app_nil_r.
    unfold GenSpec.created in *. eapply Permutation_NoDup; [|exact N]. apply Permutation_flat_map. apply Permutation_rev. }
  assert (G : gstep g (GUse k a (fun s => s)) = Ok (configure g' o (fun s => s), Some o)) by (cbn; rewrite E; reflexivity).
  destruct (C39_bound _ _ _ _ _ E) as (K & M & S). split; [exact K|]. split; [exact M|].
  pose proof (step_fits _ _ _ _ _ F G ltac:(discriminate)) as F'. pose proof (ft_slot _ _ F' k a) as X.
  cbn [configure put_algo gn_algo al_kind] in X. rewrite K, (proj2 (acat_eqb_eq _ _) eq_refl) in X. cbn [al_kind al_mesh al_set al_dom] in X.
  rewrite (proj2 (akind_eqb_eq _ _) eq_refl), M, Nat.eqb_refl in X. cbn [andb] in X. destruct X as [X1 X2]. split; [|exact X2].
  rewrite X1. cbn [GenSpec.expected]. rewrite (proj2 (acat_eqb_eq _ _) eq_refl), (proj2 (akind_eqb_eq _ _) eq_refl), Nat.eqb_refl. reflexivity.
Qed.

(* a request for a mesh that is not known ends the program, unless an object for
   this address is stored *)
Theorem C39_unknown_partial g k a : get_domain g a = None ->
  (forall o, gn_algo g (category k) = Some o -> ~ (al_kind o = k /\ al_mesh o = a)) -> access g k a = Throw.
Proof.
  intros D N. unfold GenModel.access. rewrite D. destruct (gn_algo g (category k)) as [o|] eqn:S; [|reflexivity].
  destruct (akind_eqb (al_kind o) k && Nat.eqb (al_mesh o) a) eqn:E; [|reflexivity]. exfalso. apply (N o eq_refl).
  apply andb_true_iff in E. destruct E as [E1 E2]. apply akind_eqb_eq in E1. apply Nat.eqb_eq in E2. auto.
Qed.
End Props.

Open Scope nat_scope.
(* ---- concrete histories; settings are numbers, 0 by default ---- *)
Notation use k a n := (GUse k a (fun _ : nat => n)).
Definition zero (k : akind) : nat := 0.
Definition got (os : list (gop nat)) (k : akind) (a : nat) : option (nat * nat) :=
  match grun nat zero empty_gen os with
  | Ok g => match access nat zero g k a with Ok (_, o) => Some (al_dom o, al_set o) | _ => None end
  | _ => None
  end.
Definition plain : list (gop nat) := [GNew 10 1; GNew 20 2; use KTriangulation 10 5; use KMixed 10 7; use KMixed 20 8].
(* kept; kept; reset by the other mesh; reset by the other kind *)
Example C39_example : NoDup (created nat plain) /\ got plain KTriangulation 10 = Some (1, 5) /\ got plain KMixed 20 = Some (2, 8) /\
  got plain KMixed 10 = Some (1, 0) /\ got (plain ++ [use KQuadLayer 10 3]) KTriangulation 10 = Some (1, 0) /\
  got plain KTriangulation 30 = None.
Proof. split; [repeat constructor; cbn; intuition discriminate|]. repeat split; reflexivity. Qed.

Definition joined_up : list (gop nat) := plain ++ [GMerge 10 20 true; GNew 30 3; GMerge 10 40 true; GMerge 10 30 false].
Example C39_registered_case : NoDup (created nat joined_up) /\ alive nat (rev joined_up) = [30; 10] /\
  match grun nat zero empty_gen joined_up with Ok g => gn_meshes g = [10; 30] /\ get_domain g 30 = Some 3 /\ get_domain g 20 = None | _ => False end.
Proof. split; [repeat constructor; cbn; intuition discriminate|]. split; [reflexivity|]. vm_compute. repeat split. Qed.

(* The memory of a merged mesh is used for a new one: the request for the new mesh
   returns the old object, with the settings made for the old mesh and bound to
   the domain of the old mesh. *)
Theorem C39_refuted : exists os g k a g' o, grun nat zero empty_gen os = Ok g /\ access nat zero g k a = Ok (g', o) /\
  get_domain g a = Some 3 /\ al_dom o = 2 /\ al_set o = 5 /\
  (forall d n, In (GUse k a d) os -> d n = 5 -> exists r l1 l2 l3, os = l1 ++ GUse k a d :: l2 ++ GMerge r a true :: GNew a 3 :: l3).
Proof.
  exists [GNew 10 1; GNew 20 2; use KTriangulation 20 5; GMerge 10 20 true; GNew 20 3].
  eexists _, KTriangulation, 20, _, _. split; [reflexivity|]. split; [reflexivity|]. do 3 (split; [reflexivity|]).
  intros d n Hd _. cbn in Hd. repeat destruct Hd as [Hd|Hd]; try discriminate; try contradiction. injection Hd as <-.
  exists 10, [GNew 10 1; GNew 20 2], [], []. reflexivity.
Qed.
(* and a mesh that was merged away is accepted while its object is stored *)
Theorem C39_removed_refuted : exists os g k a g' o, grun nat zero empty_gen os = Ok g /\ merged_away nat os a /\ get_domain g a = None /\
  NoDup (created nat os) /\ access nat zero g k a = Ok (g', o).
Proof.
  exists [GNew 10 1; GNew 20 2; use KTriangulation 20 5; GMerge 10 20 true].
  eexists _, KTriangulation, 20, _, _. split; [reflexivity|]. split; [exists 10; cbn; tauto|]. split; [reflexivity|].
  split; [repeat constructor; cbn; intuition discriminate|]. reflexivity.
Qed.
(* another kind of another category in between does not reset the settings *)
Theorem C39_category_refuted : exists os g k k' a g' o, NoDup (created nat os) /\ grun nat zero empty_gen (os ++ [use k' a 9]) = Ok g /\ k' <> k /\
  access nat zero g k a = Ok (g', o) /\ al_set o <> zero k.
Proof.
  exists [GNew 10 1; use KTriangulation 10 5]. eexists _, KTriangulation, KMixed, 10, _, _.
  split; [repeat constructor; cbn; intuition discriminate|]. split; [reflexivity|]. split; [discriminate|]. split; [reflexivity|]. discriminate.
Qed.

Print Assumptions C39_bound.
Print Assumptions C39_registered_partial.
Print Assumptions C39_settings_partial.
Print Assumptions C39_unknown_partial.
Print Assumptions C39_refuted.
Print Assumptions C39_removed_refuted.
Print Assumptions C39_category_refuted.
