(* Proofs about the patches of the OpenFOAM mesh. *)
From Coq Require Import Lia Permutation Sorted Qabs Qpower Lqa.
From Verif Require Import Base Chain OutModel OutProofs FoamModel FoamSpec FoamProofs.
Open Scope Z_scope.

(* ---- numpy.unique ---- *)
Lemma insert_new_in x l y : In y (insert_new x l) <-> y = x \/ In y l.
Proof.
  induction l as [|z l IH]; cbn; [intuition|]. destruct (Z.ltb_spec x z); [cbn; intuition|]. destruct (Z.eqb_spec x z) as [->|]; cbn; [intuition|]. rewrite IH. intuition.
Qed.
Lemma unique_in l x : In x (unique l) <-> In x l.
Proof. induction l as [|a l IH]; [reflexivity|]. unfold unique in *. cbn [fold_right]. rewrite insert_new_in, IH. cbn. intuition. Qed.
Lemma insert_new_sorted x l : StronglySorted Z.lt l -> StronglySorted Z.lt (insert_new x l).
Proof.
  induction 1 as [|z l S IH F]; cbn; [repeat constructor|]. destruct (Z.ltb_spec x z).
  - constructor; [constructor; assumption|]. constructor; [exact H|]. rewrite Forall_forall in *. intros y Y. specialize (F y Y). lia.
  - destruct (Z.eqb_spec x z); [constructor; assumption|]. constructor; [exact IH|]. apply Forall_forall. intros y Y. apply insert_new_in in Y. rewrite Forall_forall in F. destruct Y as [->|Y]; [lia|apply F, Y].
Qed.
Lemma unique_sorted l : StronglySorted Z.lt (unique l).
Proof. induction l as [|a l IH]; [constructor|]. apply insert_new_sorted, IH. Qed.

(* ---- blocks of equal keys ---- *)
Section Blocks.
Context {A : Type}.
Variable key : A -> Z.
Definition with_key (m : Z) (X : list A) : list A := filter (fun x => Z.eqb m (key x)) X.
Definition without_key (m : Z) (X : list A) : list A := filter (fun x => negb (Z.eqb m (key x))) X.
Lemma split_min a X : StronglySorted Z.le (map key X) -> (forall x, In x X -> a <= key x) -> X = with_key a X ++ without_key a X.
Proof.
  induction X as [|x X IH]; intros S H; [reflexivity|]. cbn [map] in S. inversion S as [|? ? S' F]. subst. unfold with_key, without_key in *. cbn [filter].
  destruct (Z.eqb_spec a (key x)) as [E|E]; cbn [negb app].
  - f_equal. apply IH; [exact S'|]. intros y Y. apply H. right. exact Y.
  - assert (LX : a < key x) by (specialize (H x (or_introl eq_refl)); lia).
    assert (G : forall y, In y X -> a <> key y).
    { intros y Y. rewrite Forall_forall in F. specialize (F (key y) (in_map key _ _ Y)). lia. }
    assert (E1 : filter (fun x0 => Z.eqb a (key x0)) X = []).
    { clear - G. induction X as [|y X IH]; [reflexivity|]. cbn. destruct (Z.eqb_spec a (key y)) as [K|K]; [exfalso; apply (G y); [left; reflexivity|exact K]|]. apply IH. intros z Z0. apply G. right. exact Z0. }
    assert (E2 : filter (fun x0 => negb (Z.eqb a (key x0))) X = X).
    { clear - G. induction X as [|y X IH]; [reflexivity|]. cbn. destruct (Z.eqb_spec a (key y)) as [K|K]; [exfalso; apply (G y); [left; reflexivity|exact K]|]. cbn. f_equal. apply IH. intros z Z0. apply G. right. exact Z0. }
    rewrite E1, E2. reflexivity.
Qed.
Lemma without_other a m X : a <> m -> with_key m (without_key a X) = with_key m X.
Proof.
  intros N. unfold with_key, without_key. induction X as [|x X IH]; [reflexivity|]. cbn. destruct (Z.eqb_spec a (key x)) as [E|E]; cbn [negb].
  - rewrite IH. destruct (Z.eqb_spec m (key x)); [congruence|reflexivity].
  - cbn. rewrite IH. reflexivity.
Qed.
Lemma without_sorted a X : StronglySorted Z.le (map key X) -> StronglySorted Z.le (map key (without_key a X)).
Proof.
  induction X as [|x X IH]; intros S; [exact S|]. cbn [map] in S. inversion S as [|? ? S' F]. subst. unfold without_key in *. cbn [filter]. destruct (negb (Z.eqb a (key x))); [|apply IH, S'].
  cbn [map]. constructor; [apply IH, S'|]. rewrite Forall_forall in *. intros y Y. apply F. apply in_map_iff in Y. destruct Y as (z & <- & Y). apply filter_In in Y. apply in_map, Y.
Qed.
Definition count_key (X : list A) (m : Z) : nat := length (with_key m X).
Lemma count_other a m X : a <> m -> count_key (without_key a X) m = count_key X m.
Proof. intros N. unfold count_key. rewrite (without_other a m X N). reflexivity. Qed.
Fixpoint before (X : list A) (u : list Z) : nat := match u with [] => 0%nat | a :: r => (count_key X a + before X r)%nat end.
Lemma block u1 : forall X m u2, StronglySorted Z.lt (u1 ++ m :: u2) -> StronglySorted Z.le (map key X) -> (forall x, In x X -> In (key x) (u1 ++ m :: u2)) ->
  with_key m X = firstn (count_key X m) (skipn (before X u1) X).
Proof.
  induction u1 as [|a u1 IH]; intros X m u2 SU SX H; cbn [app before] in *; inversion SU as [|? ? SU' F]; subst.
  - cbn [skipn]. assert (E : X = with_key m X ++ without_key m X); [apply (split_min m X SX)|transitivity (firstn (count_key X m) (with_key m X ++ without_key m X)); [rewrite firstn_app; unfold count_key; rewrite Nat.sub_diag, firstn_all; cbn [firstn]; rewrite app_nil_r; reflexivity|rewrite <- E; reflexivity]].
    intros x I. destruct (H x I) as [K|K]; [lia|]. rewrite Forall_forall in F. specialize (F _ K). lia.
  - assert (E : X = with_key a X ++ without_key a X).
    { apply split_min; [exact SX|]. intros x I. destruct (H x I) as [K|K]; [lia|]. rewrite Forall_forall in F. specialize (F _ K). lia. }
    assert (NA : forall k, In k (u1 ++ m :: u2) -> a <> k) by (intros k K; rewrite Forall_forall in F; specialize (F k K); lia).
    assert (NM : a <> m) by (apply NA, in_or_app; right; left; reflexivity).
    rewrite <- (without_other a m X NM). rewrite (IH (without_key a X) m u2 SU' (without_sorted a X SX)).
    + rewrite (count_other a m X NM).
      assert (B : before (without_key a X) u1 = before X u1).
      { clear - NA. assert (N : forall k, In k u1 -> a <> k) by (intros k K; apply NA, in_or_app; left; exact K). clear NA. induction u1 as [|b u1 IH]; [reflexivity|]. cbn [before]. rewrite (count_other a b X) by (apply N; left; reflexivity).
        f_equal. apply IH. intros k K. apply N. right. exact K. }
      rewrite B. f_equal. transitivity (skipn (count_key X a + before X u1) (with_key a X ++ without_key a X)); [|rewrite <- E; reflexivity]. rewrite skipn_app. replace (count_key X a + before X u1 - length (with_key a X))%nat with (before X u1) by (unfold count_key; lia).
      rewrite (skipn_all2 (with_key a X)) by (unfold count_key; lia). reflexivity.
    + intros x I. unfold without_key in I. apply filter_In in I. destruct I as [I K]. destruct (H x I) as [J|J]; [|exact J]. subst a. rewrite Z.eqb_refl in K. discriminate.
Qed.
Lemma count_total u : forall X, NoDup u -> (forall x, In x X -> In (key x) u) -> before X u = length X.
Proof.
  intros X N. revert X. induction N as [|a u NI N IH]; intros X H.
  - destruct X as [|x X]; [reflexivity|destruct (H x (or_introl eq_refl))].
  - cbn [before]. assert (B : before X u = before (without_key a X) u).
    { clear - NI. assert (G : forall k, In k u -> a <> k) by (intros k K ->; exact (NI K)). clear NI. induction u as [|b u IH]; [reflexivity|]. cbn [before]. rewrite (count_other a b X) by (apply G; left; reflexivity). f_equal. apply IH. intros k K. apply G. right. exact K. }
    rewrite B, (IH (without_key a X)).
    + unfold count_key, with_key, without_key. clear. induction X as [|x X IH]; [reflexivity|]. cbn. destruct (Z.eqb a (key x)); cbn; lia.
    + intros x I. unfold without_key in I. apply filter_In in I. destruct I as [I K]. destruct (H x I) as [J|J]; [subst a; rewrite Z.eqb_refl in K; discriminate|exact J].
Qed.
End Blocks.

(* ---- patches ---- *)
Fixpoint sumZ (l : list Z) : Z := match l with [] => 0 | a :: r => a + sumZ r end.
Lemma patches_in_line sizes : forall k lo, Forall (Z.le 0) sizes -> in_line lo (map snd (patches_from k lo sizes)) (lo + sumZ sizes).
Proof.
  induction sizes as [|n r IH]; intros k lo F; cbn [patches_from map snd in_line sumZ]; [lia|]. inversion F. subst. split; [reflexivity|]. split; [assumption|].
  replace (lo + (n + sumZ r)) with (lo + n + sumZ r) by lia. apply IH. assumption.
Qed.
Lemma patches_names sizes : forall k lo, map fst (patches_from k lo sizes) = map patch_name (seq k (length sizes)).
Proof. induction sizes as [|n r IH]; intros k lo; [reflexivity|]. cbn [patches_from map fst length seq]. rewrite IH. reflexivity. Qed.
Lemma patches_nth sizes : forall k lo j, nth_error (patches_from k lo sizes) j =
  match nth_error sizes j with Some n => Some (patch_name (k + j), (lo + sumZ (firstn j sizes), n)) | None => None end.
Proof.
  induction sizes as [|n r IH]; intros k lo j; [destruct j; reflexivity|]. destruct j as [|j]; cbn [patches_from nth_error firstn sumZ].
  - rewrite Nat.add_0_r, Z.add_0_r. reflexivity.
  - rewrite IH. destruct (nth_error r j); [|reflexivity]. replace (S k + j)%nat with (k + S j)%nat by lia. rewrite Z.add_assoc. reflexivity.
Qed.
Lemma sumZ_app a b : sumZ (a ++ b) = sumZ a + sumZ b.
Proof. induction a as [|x a IH]; cbn; lia. Qed.
Lemma how_many_key m l : how_many m l = Z.of_nat (count_key (fun x => x) l m).
Proof. reflexivity. Qed.
Lemma counts_before (l : list Z) u : sumZ (map (fun m => how_many m l) u) = Z.of_nat (before (fun x => x) l u).
Proof. induction u as [|a u IH]; [reflexivity|]. cbn [map sumZ before]. rewrite IH, how_many_key. lia. Qed.
Lemma strictly_nodup u : StronglySorted Z.lt u -> NoDup u.
Proof. induction 1 as [|a u S IH F]; constructor; [|exact IH]. intros I. rewrite Forall_forall in F. specialize (F a I). lia. Qed.
Lemma counts_total l : sumZ (map (fun m => how_many m l) (unique l)) = Z.of_nat (length l).
Proof.
  rewrite counts_before, (count_total (fun x => x)); [reflexivity|apply strictly_nodup, unique_sorted|]. intros x I. apply unique_in, I.
Qed.
Lemma count_combine {A} (key : A -> Z) X m : count_key key X m = count_key (fun x => x) (map key X) m.
Proof. unfold count_key, with_key. induction X as [|x X IH]; [reflexivity|]. cbn. destruct (Z.eqb m (key x)); cbn; rewrite IH; reflexivity. Qed.
Lemma before_combine {A} (key : A -> Z) X u : before key X u = before (fun x => x) (map key X) u.
Proof. induction u as [|a u IH]; [reflexivity|]. cbn [before]. rewrite count_combine, IH. reflexivity. Qed.
Lemma map_snd_combine {A B} (l : list A) : forall (m : list B), length l = length m -> map snd (combine l m) = m.
Proof. induction l as [|a l IH]; intros [|b m] H; try discriminate; [reflexivity|]. cbn. f_equal. apply IH. cbn in H. lia. Qed.
Lemma map_fst_combine {A B} (l : list A) : forall (m : list B), length l = length m -> map fst (combine l m) = l.
Proof. induction l as [|a l IH]; intros [|b m] H; try discriminate; [reflexivity|]. cbn. f_equal. apply IH. cbn in H. lia. Qed.
(* the faces of a patch *)
Definition slice {A} (s n : Z) (l : list A) : list A := firstn (Z.to_nat n) (skipn (Z.to_nat s) l).
Lemma slice_app {A} (a b c : list A) : slice (Z.of_nat (length a)) (Z.of_nat (length b)) (a ++ b ++ c) = b.
Proof.
  unfold slice. rewrite !Nat2Z.id, skipn_app, skipn_all, Nat.sub_diag. cbn [skipn app]. rewrite firstn_app, firstn_all, Nat.sub_diag. cbn [firstn]. apply app_nil_r.
Qed.
Lemma filter_perm {A} (p : A -> bool) l m : Permutation l m -> Permutation (filter p l) (filter p m).
Proof.
  induction 1 as [|x l m P IH|x y l|l m k P1 IH1 P2 IH2]; cbn [filter]; [constructor| | |transitivity (filter p m); assumption].
  - destruct (p x); [constructor|]; exact IH.
  - destruct (p x), (p y); try apply Permutation_refl. apply perm_swap.
Qed.

Section Marked.
Variable argsort : list Z -> list nat.
Hypothesis SORT : sorting argsort.
(* the markers stay in step with the edges *)
Definition in_step (t : tqm) : Prop := gather (tq_mark t) (argsort (tq_bdry_el t)) = Ok (tq_mark t).
Lemma arrange_marks t u : plane_mesh t -> in_step t -> arrange argsort t = Ok u -> Permutation (combine (tq_bdry u) (tq_mark u)) (combine (tq_bdry t) (tq_mark t)) /\ length (tq_bdry u) = length (tq_mark u).
Proof.
  intros PM ST A. unfold arrange, sort_intr, sort_bdry, sort_mark, swap_intr in A. cbn [tq_verts tq_intr tq_intr_el tq_bdry tq_bdry_el tq_mark tq_quads tq_tris] in A.
  destruct (gather _ (argsort (map fst _))) as [E1| |] eqn:G1 in A; try discriminate. destruct (gather _ (argsort (map fst _))) as [E2| |] eqn:G2 in A; try discriminate.
  cbn [obind tq_verts tq_intr tq_intr_el tq_bdry tq_bdry_el tq_mark tq_quads tq_tris] in A.
  assert (LB := pm_bdry _ PM). assert (LM := pm_mark _ PM).
  assert (P2 : Permutation (argsort (tq_bdry_el t)) (seq 0 (length (tq_bdry t)))) by (rewrite LB; apply SORT).
  destruct (gather_pair (tq_bdry t) (tq_mark t) _ LM P2) as (B1 & M1 & G3 & G4 & Q2 & L2 & L2'). unfold in_step in ST. rewrite ST in G4. injection G4 as <-.
  rewrite G3 in A. cbn [obind] in A. destruct (gather (tq_bdry_el t) (argsort (tq_bdry_el t))) as [BE| |]; try discriminate. cbn [obind tq_verts tq_intr tq_intr_el tq_bdry tq_bdry_el tq_mark tq_quads tq_tris] in A.
  assert (L3 : length B1 = length (tq_mark t)) by lia.
  assert (P3 : Permutation (argsort (tq_mark t)) (seq 0 (length B1))) by (rewrite L3; apply SORT).
  destruct (gather_pair B1 (tq_mark t) _ L3 P3) as (B2 & M2 & G5 & G6 & Q3 & L4 & L4'). rewrite G6 in A. cbn [obind] in A. rewrite G5 in A. cbn [obind] in A.
  destruct (gather BE (argsort (tq_mark t))) as [BE2| |]; try discriminate. injection A as <-. cbn [tq_bdry tq_mark]. split; [transitivity (combine B1 (tq_mark t)); assumption|lia].
Qed.
End Marked.

(* ---- six significant digits ---- *)
Lemma ten_pos e : (0 < 10 ^ e)%Q.
Proof. apply Qpower_0_lt. reflexivity. Qed.
Lemma shown_g_close e q : (Qabs (shown_g e q - q) <= (1 # 2) * 10 ^ (e - 5))%Q.
Proof.
  unfold shown_g. assert (C := near_even_close (q * 10 ^ (5 - e))%Q). set (k := inject_Z _) in *. assert (T : (10 ^ (5 - e) * 10 ^ (e - 5) == 1)%Q).
  { rewrite <- Qpower_plus by discriminate. replace (5 - e + (e - 5)) with 0 by lia. reflexivity. }
  assert (E : (k * 10 ^ (e - 5) - q == (k - q * 10 ^ (5 - e)) * 10 ^ (e - 5))%Q).
  { transitivity (k * 10 ^ (e - 5) - q * (10 ^ (5 - e) * 10 ^ (e - 5)))%Q; [rewrite T; ring|ring]. }
  rewrite E, Qabs_Qmult. rewrite (Qabs_pos (10 ^ (e - 5))%Q) by (apply Qlt_le_weak, ten_pos). apply Qmult_le_compat_r; [exact C|apply Qlt_le_weak, ten_pos].
Qed.
