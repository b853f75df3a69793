(* Proofs about the conversion to OpenFOAM. *)
From Coq Require Import Lia Lqa Permutation Sorted.
From Verif Require Import Base Chain FoamModel FoamSpec.
Open Scope Z_scope.

Lemma sumQ_perm l m : Permutation l m -> (sumQ l == sumQ m)%Q.
Proof. induction 1 as [|x l m P IH|x y l|l m k P1 IH1 P2 IH2]; cbn [sumQ]; [reflexivity|rewrite IH; reflexivity|ring|rewrite IH1; exact IH2]. Qed.

(* ---- sorting ---- *)
Lemma gather_ok {A} (d : A) l ids : (forall i, In i ids -> (i < length l)%nat) -> gather l ids = Ok (map (fun i => nth i l d) ids).
Proof.
  induction ids as [|i r IH]; intros H; [reflexivity|]. cbn [gather map]. rewrite (nth_error_nth' l d) by (apply H; left; reflexivity).
  rewrite IH by (intros j J; apply H; right; exact J). reflexivity.
Qed.
Lemma map_nth_seq {A} (d : A) l : map (fun i => nth i l d) (seq 0 (length l)) = l.
Proof.
  induction l as [|x l IH]; [reflexivity|]. cbn [length seq map nth]. f_equal. rewrite <- seq_shift, map_map. exact IH.
Qed.
Lemma gather_perm {A} (l : list A) ids : Permutation ids (seq 0 (length l)) -> exists l', gather l ids = Ok l' /\ Permutation l' l /\ length l' = length l.
Proof.
  intros P. destruct l as [|d l0] eqn:E.
  - cbn in P. apply Permutation_sym, Permutation_nil in P. subst ids. exists []. repeat split. constructor.
  - rewrite <- E in *. exists (map (fun i => nth i l d) ids). split; [|split].
    + apply gather_ok. intros i I. apply (Permutation_in _ P), in_seq in I. lia.
    + transitivity (map (fun i => nth i l d) (seq 0 (length l))); [apply Permutation_map, P|rewrite map_nth_seq; apply Permutation_refl].
    + rewrite map_length. apply Permutation_length in P. rewrite seq_length in P. exact P.
Qed.
(* two arrays that are permuted together *)
Lemma gather_pair {A B} (l : list A) (m : list B) ids : length l = length m -> Permutation ids (seq 0 (length l)) ->
  exists l' m', gather l ids = Ok l' /\ gather m ids = Ok m' /\ Permutation (combine l' m') (combine l m) /\ length l' = length l /\ length m' = length m.
Proof.
  intros L P. destruct (gather_perm l ids P) as (l' & El & Pl & Ll). assert (P' : Permutation ids (seq 0 (length m))) by (rewrite <- L; exact P).
  destruct (gather_perm m ids P') as (m' & Em & Pm & Lm). exists l', m'. split; [exact El|]. split; [exact Em|]. split; [|split; assumption].
  assert (Q : Permutation ids (seq 0 (length (combine l m)))) by (rewrite combine_length, <- L, Nat.min_id; exact P).
  destruct (gather_perm (combine l m) ids Q) as (k & Ek & Pk & _).
  assert (X : k = combine l' m'); [|rewrite <- X; exact Pk].
  clear - El Em Ek L. revert l' m' k El Em Ek. induction ids as [|i r IH]; intros l' m' k El Em Ek; cbn [gather] in *.
  - injection El as <-. injection Em as <-. injection Ek as <-. reflexivity.
  - destruct (nth_error l i) as [x|] eqn:X; [|discriminate]. destruct (nth_error m i) as [y|] eqn:Y; [|discriminate].
    assert (Z : nth_error (combine l m) i = Some (x, y)).
    { clear - X Y. revert l m X Y. induction i as [|i IH]; intros [|a l] [|b m] X Y; try discriminate; cbn in *; [congruence|apply IH; assumption]. }
    rewrite Z in Ek. destruct (gather l r) as [l1| |]; try discriminate. destruct (gather m r) as [m1| |]; try discriminate. destruct (gather (combine l m) r) as [k1| |]; try discriminate.
    cbn [obind] in *. injection El as <-. injection Em as <-. injection Ek as <-. cbn [combine]. f_equal. apply IH; reflexivity.
Qed.
Lemma gather_map {A B} (f : A -> B) l ids : gather (map f l) ids = match gather l ids with Ok x => Ok (map f x) | UB => UB | Throw => Throw end.
Proof.
  induction ids as [|i r IH]; [reflexivity|]. cbn [gather]. rewrite nth_error_map. destruct (nth_error l i) as [x|]; [|reflexivity]. cbn [option_map].
  rewrite IH. destruct (gather l r); reflexivity.
Qed.

(* ---- swapping ---- *)
Lemma swap_el el : swap_pair el el = el \/ swap_pair el el = (snd el, fst el).
Proof. unfold swap_pair. destruct (Z.ltb _ _); tauto. Qed.
Lemma combine_map_both {A B C D} (f : A * B -> C) (g : B -> D) l : forall m, length l = length m ->
  combine (map f (combine l m)) (map g m) = map (fun x => (f x, g (snd x))) (combine l m).
Proof. induction l as [|a l IH]; intros [|b m] H; try discriminate; [reflexivity|]. cbn [combine map snd]. f_equal. apply IH. cbn in H. lia. Qed.
Definition intr_sides (c : Z) (x : (Z * Z) * (Z * Z)) : list (Z * Z) :=
  (if Z.eqb (fst (snd x)) c then [fst x] else []) ++ (if Z.eqb (snd (snd x)) c then [(snd (fst x), fst (fst x))] else []).
Lemma swap_sides c x : Permutation (intr_sides c (swap_pair (snd x) (fst x), swap_pair (snd x) (snd x))) (intr_sides c x).
Proof.
  destruct x as [[a b] [l r]]. unfold swap_pair, intr_sides. cbn [fst snd]. destruct (Z.ltb l r); [|apply Permutation_refl]. cbn [fst snd].
  apply Permutation_app_comm.
Qed.
Lemma flat_map_perm {A B} (f : A -> list B) l m : Permutation l m -> Permutation (flat_map f l) (flat_map f m).
Proof.
  induction 1 as [|x l m P IH|x y l|l m k P1 IH1 P2 IH2]; cbn [flat_map].
  - constructor.
  - apply Permutation_app_head, IH.
  - rewrite !app_assoc. apply Permutation_app_tail, Permutation_app_comm.
  - transitivity (flat_map f m); assumption.
Qed.
Lemma flat_map_each {A B} (f g : A -> list B) l : (forall x, Permutation (f x) (g x)) -> Permutation (flat_map f l) (flat_map g l).
Proof. intros H. induction l as [|a l IH]; cbn [flat_map]; [constructor|apply Permutation_app; [apply H|exact IH]]. Qed.

Record arranged (t u : tqm) : Prop := {
  ar_verts : tq_verts u = tq_verts t;
  ar_quads : tq_quads u = tq_quads t;
  ar_tris : tq_tris u = tq_tris t;
  ar_intr : length (tq_intr u) = length (tq_intr_el u) /\ length (tq_intr u) = length (tq_intr t);
  ar_bdry : length (tq_bdry u) = length (tq_bdry_el u) /\ length (tq_bdry u) = length (tq_bdry t);
  ar_pairs : Permutation (combine (tq_bdry u) (tq_bdry_el u)) (combine (tq_bdry t) (tq_bdry_el t));
  ar_mark : Permutation (tq_mark u) (tq_mark t);
  ar_marks : Sorted Z.le (tq_mark u);
  ar_sides : forall c, Permutation (sides_of c u) (sides_of c t);
  ar_upper : forall l r, In (l, r) (tq_intr_el u) -> r <= l /\ (In (l, r) (tq_intr_el t) \/ In (r, l) (tq_intr_el t));
  ar_keys : Sorted Z.le (map fst (tq_intr_el u))
}.

Section Arrange.
Variable argsort : list Z -> list nat.
Hypothesis SORT : sorting argsort.

Lemma gather_sorted keys k : gather keys (argsort keys) = Ok k -> Sorted Z.le k.
Proof.
  intros G. destruct (SORT keys) as [P S]. rewrite (gather_ok 0) in G.
  - injection G as <-. exact S.
  - intros i I. apply (Permutation_in _ P), in_seq in I. lia.
Qed.
Lemma arrange_ok t : plane_mesh t -> exists u, arrange argsort t = Ok u /\ arranged t u.
Proof.
  intros PM. unfold arrange.
  assert (LI := pm_intr _ PM). assert (LB := pm_bdry _ PM). assert (LM := pm_mark _ PM).
  set (E := map (fun x => swap_pair (snd x) (fst x)) (combine (tq_intr t) (tq_intr_el t))).
  set (EL := map (fun el => swap_pair el el) (tq_intr_el t)).
  assert (LE : length E = length EL) by (unfold E, EL; rewrite !map_length, combine_length; lia).
  assert (LE' : length E = length (tq_intr t)) by (unfold E; rewrite map_length, combine_length; lia).
  assert (P1 : Permutation (argsort (map fst EL)) (seq 0 (length E))).
  { rewrite LE, <- (map_length fst EL). apply SORT. }
  destruct (gather_pair E EL _ LE P1) as (E1 & EL1 & G1 & G2 & Q1 & L1 & L1').
  assert (P2 : Permutation (argsort (tq_bdry_el t)) (seq 0 (length (tq_bdry t)))) by (rewrite LB; apply SORT).
  destruct (gather_pair (tq_bdry t) (tq_bdry_el t) _ LB P2) as (B1 & BE1 & G3 & G4 & Q2 & L2 & L2').
  assert (P3 : Permutation (argsort (tq_mark t)) (seq 0 (length B1))) by (rewrite L2, LM; apply SORT).
  assert (LB1 : length B1 = length BE1) by lia.
  destruct (gather_pair B1 BE1 _ LB1 P3) as (B2 & BE2 & G5 & G6 & Q3 & L3 & L3').
  destruct (gather_perm (tq_mark t) (argsort (tq_mark t)) (proj1 (SORT _))) as (M & G7 & Q4 & L4).
  exists (TQ (tq_verts t) E1 EL1 B2 BE2 M (tq_quads t) (tq_tris t)). split.
  - unfold sort_intr, swap_intr. cbn [tq_verts tq_intr tq_intr_el tq_bdry tq_bdry_el tq_mark tq_quads tq_tris]. fold E. fold EL.
    rewrite G1, G2. cbn [obind]. unfold sort_bdry. cbn [tq_verts tq_intr tq_intr_el tq_bdry tq_bdry_el tq_mark tq_quads tq_tris].
    rewrite G3, G4. cbn [obind]. unfold sort_mark. cbn [tq_verts tq_intr tq_intr_el tq_bdry tq_bdry_el tq_mark tq_quads tq_tris].
    rewrite G7. cbn [obind]. rewrite G5, G6. reflexivity.
  - constructor; cbn [tq_verts tq_intr tq_intr_el tq_bdry tq_bdry_el tq_mark tq_quads tq_tris]; try reflexivity.
    + lia.
    + lia.
    + transitivity (combine B1 BE1); assumption.
    + exact Q4.
    + apply (gather_sorted _ _ G7).
    + intros c. unfold sides_of. cbn [tq_intr tq_intr_el tq_bdry tq_bdry_el]. apply Permutation_app.
      * transitivity (flat_map (intr_sides c) (combine E EL)); [apply (flat_map_perm (intr_sides c)), Q1|].
        unfold E, EL. rewrite combine_map_both by exact LI. rewrite flat_map_concat_map, map_map, <- flat_map_concat_map.
        apply (flat_map_each _ (intr_sides c)). intros x. apply swap_sides.
      * apply flat_map_perm. transitivity (combine B1 BE1); assumption.
    + intros l r I.
      assert (J : In (l, r) EL).
      { destruct (gather_perm EL (argsort (map fst EL))) as (k & G & PK & _).
        - rewrite <- (map_length fst EL). apply SORT.
        - rewrite G2 in G. injection G as <-. apply (Permutation_in _ PK I). }
      unfold EL in J. apply in_map_iff in J. destruct J as ([x y] & J & I'). unfold swap_pair in J. cbn [fst snd] in J.
      destruct (Z.ltb x y) eqn:T; injection J as <- <-; [apply Z.ltb_lt in T|apply Z.ltb_ge in T]; (split; [lia|]); [right|left]; exact I'.
    + assert (G8 := gather_map fst EL (argsort (map fst EL))). rewrite G2 in G8. apply (gather_sorted _ _ G8).
Qed.
End Arrange.

(* ---- the faces of a cell ---- *)
Section Faces.
Variable F : list Z -> Q.
Variable n : Z.
Variable ok : Z * Z -> Prop.
Hypothesis FR : forall e, ok e -> (F (rev (intr_face n e)) == F (bdry_face n e))%Q.
Definition fsum (fs : list (list Z)) : Q := sumQ (map F fs).

Lemma fsum_app a b : (fsum (a ++ b) == fsum a + fsum b)%Q.
Proof. unfold fsum. rewrite map_app. apply sumQ_app. Qed.
Lemma fsum_intr c E : forall EL fs os, length E = length EL -> (forall e, In e (flat_map (intr_sides c) (combine E EL)) -> ok e) ->
  (fsum (outward c (map (intr_face n) E ++ fs) (map snd EL ++ os) (map fst EL))
   == fsum (map (bdry_face n) (flat_map (intr_sides c) (combine E EL))) + fsum (outward c fs os []))%Q.
Proof.
  induction E as [|e E IH]; intros [|el EL] fs os L O; try discriminate.
  - cbn. unfold fsum. cbn. ring.
  - cbn [map app outward combine flat_map] in *. rewrite map_app, !fsum_app. rewrite IH; [|cbn in L; lia|intros x X; apply O, in_or_app; right; exact X].
    assert (O1 : Z.eqb (fst el) c = true -> ok e).
    { intros T. apply O, in_or_app. left. unfold intr_sides. cbn [fst snd]. rewrite T. left. reflexivity. }
    unfold intr_sides at 2. cbn [fst snd]. rewrite map_app, fsum_app.
    assert (A : (fsum (if Z.eqb (snd el) c then [intr_face n e] else []) == fsum (map (bdry_face n) (if Z.eqb (snd el) c then [(snd e, fst e)] else [])))%Q).
    { destruct (Z.eqb (snd el) c); reflexivity. }
    assert (B : (fsum (if Z.eqb (fst el) c then [rev (intr_face n e)] else []) == fsum (map (bdry_face n) (if Z.eqb (fst el) c then [e] else [])))%Q).
    { destruct (Z.eqb (fst el) c); [|reflexivity]. unfold fsum. cbn [map sumQ]. rewrite FR by (apply O1; reflexivity). reflexivity. }
    rewrite A, B. ring.
Qed.
Lemma fsum_own c E : forall EL fs os, length E = length EL ->
  (fsum (outward c (map (bdry_face n) E ++ fs) (EL ++ os) [])
   == fsum (map (bdry_face n) (flat_map (fun x : (Z * Z) * Z => if Z.eqb (snd x) c then [fst x] else []) (combine E EL))) + fsum (outward c fs os []))%Q.
Proof.
  induction E as [|e E IH]; intros [|el EL] fs os L; try discriminate.
  - cbn. unfold fsum. cbn. ring.
  - cbn [map app outward combine flat_map fst snd]. rewrite map_app, !fsum_app. rewrite IH by (cbn in L; lia).
    destruct (Z.eqb el c); unfold fsum; cbn; ring.
Qed.
(* the bases *)
Lemma outward_none c (g : list Z -> list Z) ls : forall a fs os, (c < Z.of_nat a) ->
  outward c (map g ls ++ fs) (map Z.of_nat (seq a (length ls)) ++ os) [] = outward c fs os [].
Proof.
  induction ls as [|l ls IH]; intros a fs os H; [reflexivity|]. cbn [map app length seq outward].
  destruct (Z.eqb_spec (Z.of_nat a) c) as [J|J]; [lia|]. cbn [app]. apply IH. lia.
Qed.
Lemma outward_base (g : list Z -> list Z) ls : forall a i l fs os, nth_error ls i = Some l ->
  outward (Z.of_nat (a + i)) (map g ls ++ fs) (map Z.of_nat (seq a (length ls)) ++ os) [] = g l :: outward (Z.of_nat (a + i)) fs os [].
Proof.
  induction ls as [|x ls IH]; intros a [|i] l fs os H; try discriminate; cbn [map app length seq outward].
  - injection H as ->. rewrite Nat.add_0_r, Z.eqb_refl. cbn [app]. f_equal. apply outward_none. lia.
  - destruct (Z.eqb_spec (Z.of_nat a) (Z.of_nat (a + S i))) as [J|J]; [lia|]. cbn [app].
    replace (a + S i)%nat with (S a + i)%nat by lia. apply IH, H.
Qed.
Lemma cell_sum t i l : length (tq_intr t) = length (tq_intr_el t) -> length (tq_bdry t) = length (tq_bdry_el t) ->
  nth_error (cells_of t) i = Some l -> (forall e, In e (sides_of (Z.of_nat i) t) -> ok e) ->
  (fsum (outward (Z.of_nat i) (foam_faces n t) (foam_owner t) (foam_nbr t))
   == fsum (map (bdry_face n) (sides_of (Z.of_nat i) t)) + F (rev l) + F (map (fun v => v + n)%Z l))%Q.
Proof.
  intros LI LB H O. unfold foam_faces, foam_owner, foam_nbr. cbv zeta. rewrite fsum_intr; [|exact LI|intros e I; apply O; unfold sides_of; apply in_or_app; left; exact I]. rewrite fsum_own by exact LB.
  replace (length (tq_tris t) + length (tq_quads t))%nat with (length (cells_of t)) by (unfold cells_of; rewrite app_length; lia).
  assert (X := outward_base (@rev Z) (cells_of t) 0 i l (map (map (fun v => v + n)) (cells_of t)) (map Z.of_nat (seq 0 (length (cells_of t)))) H).
  cbn [plus] in X. rewrite X. clear X.
  assert (X := outward_base (map (fun v => v + n)) (cells_of t) 0 i l [] [] H). cbn [plus] in X. rewrite !app_nil_r in X. rewrite X. clear X.
  unfold sides_of. rewrite map_app, fsum_app. unfold fsum at 3. cbn [outward map sumQ].
  fold (intr_sides (Z.of_nat i)).
  change (flat_map (fun x : Z * Z * (Z * Z) => (if Z.eqb (fst (snd x)) (Z.of_nat i) then [fst x] else []) ++ (if Z.eqb (snd (snd x)) (Z.of_nat i) then [(snd (fst x), fst (fst x))] else [])) (combine (tq_intr t) (tq_intr_el t)))
    with (flat_map (intr_sides (Z.of_nat i)) (combine (tq_intr t) (tq_intr_el t))). ring.
Qed.
Lemma cell_sum_ring t u i l : plane_mesh t -> arranged t u -> nth_error (cells_of t) i = Some l -> (forall e, In e (ring_edges l) -> ok e) ->
  (fsum (outward (Z.of_nat i) (foam_faces n u) (foam_owner u) (foam_nbr u))
   == fsum (map (bdry_face n) (ring_edges l)) + F (rev l) + F (map (fun v => v + n)%Z l))%Q.
Proof.
  intros PM AR H O. assert (H' : nth_error (cells_of u) i = Some l) by (unfold cells_of in *; rewrite (ar_quads _ _ AR), (ar_tris _ _ AR); exact H).
  assert (P : Permutation (sides_of (Z.of_nat i) u) (ring_edges l)).
  { transitivity (sides_of (Z.of_nat i) t); [apply (ar_sides _ _ AR)|apply Permutation_sym, (pm_sides _ PM _ _ H)]. }
  rewrite (cell_sum u i l (proj1 (ar_intr _ _ AR)) (proj1 (ar_bdry _ _ AR)) H') by (intros e I; apply O, (Permutation_in _ P), I).
  assert (S : (fsum (map (bdry_face n) (sides_of (Z.of_nat i) u)) == fsum (map (bdry_face n) (ring_edges l)))%Q).
  { unfold fsum. apply sumQ_perm. do 2 apply Permutation_map. exact P. }
  rewrite S. reflexivity.
Qed.
End Faces.

(* ---- closed surfaces ---- *)
Lemma fsum_arcs w fs : (fsum (fun f => esum w (ring_edges f)) fs == esum w (arcs fs))%Q.
Proof. induction fs as [|f fs IH]; [reflexivity|]. unfold fsum, arcs in *. cbn [map sumQ flat_map]. rewrite esum_app, IH. reflexivity. Qed.
Lemma prism_closed w n l : antisym w ->
  (fsum (fun f => esum w (ring_edges f)) (map (bdry_face n) (ring_edges l)) + esum w (ring_edges (rev l)) + esum w (ring_edges (map (fun v => v + n)%Z l)) == 0)%Q.
Proof.
  intros A. rewrite !esum_ring, (loop_rev w l A), loop_map.
  assert (S : forall es, (fsum (fun f => esum w (ring_edges f)) (map (bdry_face n) es) ==
    esum w es + esum (fun a b => w b (b + n)%Z - w a (a + n)%Z) es - esum (fun a b => w (a + n)%Z (b + n)%Z) es)%Q).
  { induction es as [|[a b] es IH]; [unfold fsum; cbn; ring|]. unfold fsum in *. cbn [map sumQ esum]. rewrite IH. unfold bdry_face. rewrite esum_ring. cbn [loop_w path_w app fst snd].
    rewrite (A (a + n)%Z (b + n)%Z), (A a (a + n)%Z). ring. }
  rewrite S. rewrite (ring_balanced l (fun v => w v (v + n)%Z)). rewrite <- !esum_ring. ring.
Qed.
Lemma times_weight a b es : (esum (fun x y => (if pair_eq (a, b) (x, y) then 1 else 0) - (if pair_eq (b, a) (x, y) then 1 else 0)) es ==
  inject_Z (Z.of_nat (times (a, b) es)) - inject_Z (Z.of_nat (times (b, a) es)))%Q.
Proof.
  induction es as [|[x y] es IH]; [reflexivity|]. cbn [esum]. rewrite IH. unfold times. cbn [filter].
  destruct (pair_eq (a, b) (x, y)), (pair_eq (b, a) (x, y)); cbn [length]; rewrite ?Nat2Z.inj_succ; unfold Z.succ; rewrite ?inject_Z_plus; change (inject_Z 1) with 1%Q; ring.
Qed.
Lemma closed_of_weights fs : (forall w, antisym w -> (esum w (arcs fs) == 0)%Q) -> closed_surface fs.
Proof.
  intros H a b. assert (X := H (fun x y => (if pair_eq (a, b) (x, y) then 1 else 0) - (if pair_eq (b, a) (x, y) then 1 else 0))%Q).
  rewrite times_weight in X. assert (Y : (inject_Z (Z.of_nat (times (a, b) (arcs fs))) == inject_Z (Z.of_nat (times (b, a) (arcs fs))))%Q).
  { assert (Z : (inject_Z (Z.of_nat (times (a, b) (arcs fs))) - inject_Z (Z.of_nat (times (b, a) (arcs fs))) == 0)%Q); [|lra]. apply X. intros x y.
    assert (E1 : pair_eq (a, b) (y, x) = pair_eq (b, a) (x, y)) by (unfold pair_eq; cbn; apply andb_comm).
    assert (E2 : pair_eq (b, a) (y, x) = pair_eq (a, b) (x, y)) by (unfold pair_eq; cbn; apply andb_comm).
    rewrite E1, E2. ring. }
  unfold Qeq in Y. cbn in Y. lia.
Qed.
Lemma cell_closed t u i l : plane_mesh t -> arranged t u -> nth_error (cells_of t) i = Some l ->
  forall n, closed_surface (outward (Z.of_nat i) (foam_faces n u) (foam_owner u) (foam_nbr u)).
Proof.
  intros PM AR H n. apply closed_of_weights. intros w A. rewrite <- fsum_arcs.
  rewrite (cell_sum_ring (fun f => esum w (ring_edges f)) n (fun _ => True)) with (t := t) (l := l); trivial; [apply prism_closed; exact A|].
  intros [a b] _. unfold intr_face, bdry_face. cbn [rev app fst snd]. rewrite !esum_ring. cbn [loop_w path_w app]. ring.
Qed.

(* ---- volumes ---- *)
Definition cr (p : Z -> Q * Q) (a b : Z) : Q := (fst (p a) * snd (p b) - snd (p a) * fst (p b))%Q.
Section Volume.
Variable p : Z -> Q * Q.
Variable P : Z -> Q * Q * Q.
Variable n : Z.
Variable z : Q.
Variable good : Z -> Prop.
Hypothesis LOW : forall v, good v -> P v = (p v, 0%Q).
Hypothesis HIGH : forall v, good v -> P (v + n) = (p v, z).

Lemma side_volume a b : good a -> good b -> (face_volume P (bdry_face n (a, b)) == (1 # 3) * z * cr p a b)%Q.
Proof.
  intros A B. unfold face_volume, bdry_face, cr. cbn [fan fst snd]. rewrite (LOW a A), (LOW b B), (HIGH a A), (HIGH b B).
  destruct (p a) as [ax ay], (p b) as [bx by_]. cbn [triple fst snd]. ring.
Qed.
Lemma side_volume_rev a b : good a -> good b -> (face_volume P (rev (intr_face n (a, b))) == (1 # 3) * z * cr p a b)%Q.
Proof.
  intros A B. unfold face_volume, intr_face, cr. cbn [rev app fan fst snd]. rewrite (LOW a A), (LOW b B), (HIGH a A), (HIGH b B).
  destruct (p a) as [ax ay], (p b) as [bx by_]. cbn [triple fst snd]. ring.
Qed.
Lemma fan_flat a l : good a -> (forall v, In v l -> good v) -> (fan P a l == 0)%Q.
Proof.
  intros A. induction l as [|b [|c l] IH]; intros H; try reflexivity. change (fan P a (b :: c :: l)) with (triple (P a) (P b) (P c) + fan P a (c :: l))%Q.
  rewrite IH by (intros v V; apply H; right; exact V). rewrite (LOW a A), (LOW b), (LOW c) by (apply H; cbn; tauto).
  destruct (p a), (p b), (p c). cbn [triple]. ring.
Qed.
Lemma base_volume l : (forall v, In v l -> good v) -> (face_volume P (rev l) == 0)%Q.
Proof.
  intros H. assert (H' : forall v, In v (rev l) -> good v) by (intros v V; apply H, in_rev, V). destruct (rev l) as [|a r]; [reflexivity|]. unfold face_volume.
  rewrite fan_flat; [ring|apply H'; left; reflexivity|intros v V; apply H'; right; exact V].
Qed.
Lemma fan_top a l : good a -> forall b, (forall v, In v (b :: l) -> good v) ->
  (fan P (a + n) (map (fun v => v + n)%Z (b :: l)) == z * (cr p a b + path_w (cr p) b (l ++ [a])))%Q.
Proof.
  intros A. induction l as [|c l IH]; intros b H.
  - cbn [map fan app path_w]. unfold cr. ring.
  - change (fan P (a + n) (map (fun v => v + n)%Z (b :: c :: l))) with (triple (P (a + n)%Z) (P (b + n)%Z) (P (c + n)%Z) + fan P (a + n) (map (fun v => v + n)%Z (c :: l)))%Q.
    rewrite IH by (intros v V; apply H; right; exact V). rewrite (HIGH a A), (HIGH b), (HIGH c) by (apply H; cbn; tauto).
    cbn [app path_w]. unfold cr. destruct (p a) as [ax ay], (p b) as [bx by_], (p c) as [cx cy]. cbn [triple fst snd]. ring.
Qed.
Lemma top_volume l : (forall v, In v l -> good v) -> (face_volume P (map (fun v => v + n)%Z l) == (1 # 3) * z * plane_area p l)%Q.
Proof.
  intros H. unfold plane_area. change (fun a b : Z => (fst (p a) * snd (p b) - snd (p a) * fst (p b))%Q) with (cr p). rewrite esum_ring. destruct l as [|a [|b l]].
  - cbn. ring.
  - cbn [map face_volume fan loop_w path_w app]. unfold cr. ring.
  - cbn [map face_volume loop_w app path_w]. change ((b + n)%Z :: map (fun v => v + n)%Z l) with (map (fun v => v + n)%Z (b :: l)).
    rewrite fan_top; [ring|apply H; left; reflexivity|intros v V; apply H; right; exact V].
Qed.
Lemma sides_volume es : (forall e, In e es -> good (fst e) /\ good (snd e)) -> (fsum (face_volume P) (map (bdry_face n) es) == (1 # 3) * z * esum (cr p) es)%Q.
Proof.
  induction es as [|[a b] es IH]; intros H; [unfold fsum; cbn; ring|]. unfold fsum in *. cbn [map sumQ esum]. rewrite IH by (intros e E; apply H; right; exact E).
  destruct (H (a, b) (or_introl eq_refl)) as [A B]. rewrite side_volume by assumption. ring.
Qed.
Lemma prism_volume l : (forall v, In v l -> good v) ->
  (fsum (face_volume P) (map (bdry_face n) (ring_edges l)) + face_volume P (rev l) + face_volume P (map (fun v => v + n)%Z l) == z * plane_area p l)%Q.
Proof.
  intros H. rewrite sides_volume.
  - rewrite base_volume, top_volume by exact H. unfold plane_area. change (fun a b : Z => (fst (p a) * snd (p b) - snd (p a) * fst (p b))%Q) with (cr p). ring.
  - intros [a b] E. assert (X : In a l /\ In b l); [|split; apply H; apply X]. clear - E. destruct l as [|x r]; [destruct E|]. unfold ring_edges in E.
    assert (G : forall l c, In (a, b) (path_edges c l) -> In a (c :: l) /\ In b l).
    { clear. induction l as [|d l IH]; intros c H; [destruct H|]. cbn in H. destruct H as [H|H]; [injection H as <- <-; cbn; tauto|]. apply IH in H. cbn in *. tauto. }
    apply G in E. destruct E as [E1 E2]. cbn [In] in *. rewrite in_app_iff in *. cbn [In] in *. tauto.
Qed.
End Volume.
