(* Winding numbers: triangles, quads, cutting of segments, conforming meshes. *)
From Coq Require Import Lqa Lia Permutation.
From Verif Require Import Base Chain GeomSpec MeshModel WindSpec.
Open Scope Q_scope.

Lemma qle_cases x y : (Qle_bool x y = true /\ x <= y) \/ (Qle_bool x y = false /\ y < x).
Proof.
  destruct (Qle_bool x y) eqn:E; [left|right]; split; try reflexivity.
  - apply Qle_bool_iff. exact E.
  - destruct (Qlt_le_dec y x) as [H|H]; [exact H|]. apply Qle_bool_iff in H. congruence.
Qed.
Ltac qcase x y := let E := fresh "E" in let L := fresh "L" in destruct (qle_cases x y) as [[E L]|[E L]]; rewrite ?E.

Lemma crossing_antisym p : antisym (crossing p).
Proof.
  intros a b. unfold crossing. destruct (Qle_bool (vy a) (vy p)), (Qle_bool (vy b) (vy p)); try reflexivity;
    destruct (Qle_bool _ 0); reflexivity.
Qed.
Lemma det_swap a b p : det b a p == - det a b p.
Proof. unfold det. ring. Qed.
Lemma det_sum a b c p : det a b p + det b c p + det c a p == det a b c.
Proof. unfold det. ring. Qed.
Lemma det_height a b c p :
  det b c p * (vy a - vy p) + det c a p * (vy b - vy p) + det a b p * (vy c - vy p) == 0.
Proof. unfold det. ring. Qed.


Definition mem (p a b c : vec2) : Q := crossing p a b + crossing p b c + crossing p c a.
Lemma mem_turn p a b c : mem p b c a == mem p a b c.
Proof. unfold mem. ring. Qed.
Definition verdict (m al be ga : Q) : Prop :=
  (m == 0 /\ ~ (0 < al /\ 0 < be /\ 0 < ga)) \/ (m == 1 /\ 0 <= al /\ 0 <= be /\ 0 <= ga).
Lemma flat_zero a b c p : vy a - vy p == 0 -> vy b - vy p == 0 -> vy c - vy p == 0 -> det a b c == 0.
Proof.
  intros A B C. unfold det. assert (E1 : vy c - vy a == 0) by lra. assert (E2 : vy b - vy a == 0) by lra.
  rewrite E1, E2. ring.
Qed.
(* sign patterns of heights (da,db,dc) *)
Lemma all_below al be ga da db dc D : 0 < D -> al + be + ga == D -> be * da + ga * db + al * dc == 0 ->
  (da == 0 -> db == 0 -> dc == 0 -> D == 0) -> da <= 0 -> db <= 0 -> dc <= 0 -> ~ (0 < al /\ 0 < be /\ 0 < ga).
Proof.
  intros HD HS HH Z A B C (X & Y & W).
  assert (da == 0) by nra. assert (db == 0) by nra. assert (dc == 0) by nra. specialize (Z H H0 H1). lra.
Qed.
Lemma all_above al be ga da db dc : be * da + ga * db + al * dc == 0 -> 0 < da -> 0 < db -> 0 < dc -> ~ (0 < al /\ 0 < be /\ 0 < ga).
Proof. intros HH A B C (X & Y & W). nra. Qed.
Lemma neg_mul x y : 0 < x * y -> y <= 0 -> x < 0.
Proof. intros. nra. Qed.
(* a at or below, b and c above *)
Lemma one_below al be ga da db dc D : 0 < D -> al + be + ga == D -> be * da + ga * db + al * dc == 0 ->
  da <= 0 -> 0 < db -> 0 < dc ->
  (0 < al /\ 0 <= ga /\ 0 <= be) \/ (~ (0 < al /\ 0 <= ga) /\ ((0 < al /\ ga < 0) \/ (al <= 0 /\ 0 <= ga))).
Proof.
  intros HD HS HH A B C.
  destruct (Qlt_le_dec 0 al) as [X|X], (Qlt_le_dec ga 0) as [Y|Y].
  - right. split; [lra|]. left. lra.
  - left. split; [exact X|]. split; [exact Y|]. assert (0 < al * dc) by nra. assert (0 <= ga * db) by nra.
    destruct (Qlt_le_dec be 0) as [W|W]; [|exact W]. assert (0 <= be * da) by nra. lra.
  - exfalso. assert (al * dc <= 0) by nra. assert (ga * db < 0) by nra. assert (P : 0 < be * da) by lra.
    apply neg_mul in P; [|exact A]. lra.
  - right. split; [lra|]. right. lra.
Qed.
(* a above, b and c at or below *)
Lemma one_above al be ga da db dc D : 0 < D -> al + be + ga == D -> be * da + ga * db + al * dc == 0 ->
  0 < da -> db <= 0 -> dc <= 0 ->
  (0 < ga /\ 0 <= al /\ 0 <= be) \/ (~ (0 < ga /\ 0 <= al) /\ ((0 < ga /\ al < 0) \/ (ga <= 0 /\ 0 <= al))).
Proof.
  intros HD HS HH A B C.
  destruct (Qlt_le_dec 0 ga) as [X|X], (Qlt_le_dec al 0) as [Y|Y].
  - right. split; [lra|]. left. lra.
  - left. split; [exact X|]. split; [exact Y|]. assert (ga * db <= 0) by nra. assert (al * dc <= 0) by nra.
    destruct (Qlt_le_dec be 0) as [W|W]; [|exact W]. assert (be * da < 0) by nra. lra.
  - exfalso. assert (0 <= ga * db) by nra. assert (0 <= al * dc) by nra.
    destruct (Qlt_le_dec 0 be) as [W|W]; [|lra]. assert (0 < be * da) by nra. lra.
  - right. split; [lra|]. right. lra.
Qed.
Ltac leaf := first [left; split; [reflexivity|intros (? & ? & ?); lra]|right; split; [reflexivity|split; [|split]; lra]|exfalso; lra].
Ltac signs := repeat match goal with |- context [Qle_bool ?x 0] => qcase x 0 end.

Lemma mem_cases p a b c : 0 < det a b c -> verdict (mem p a b c) (det a b p) (det b c p) (det c a p).
Proof.
  intros D. assert (S := det_sum a b c p). assert (H := det_height a b c p). assert (Z := flat_zero a b c p).
  assert (T1 := det_swap a b p). assert (T2 := det_swap b c p). assert (T3 := det_swap c a p).
  unfold verdict, mem, crossing. set (al := det a b p) in *. set (be := det b c p) in *. set (ga := det c a p) in *.
  set (al' := det b a p) in *. set (be' := det c b p) in *. set (ga' := det a c p) in *.
  set (DD := det a b c) in *. clearbody al be ga al' be' ga' DD.
  qcase (vy a) (vy p); qcase (vy b) (vy p); qcase (vy c) (vy p); cbv iota.
  - left. split; [reflexivity|]. apply (all_below al be ga (vy a - vy p) (vy b - vy p) (vy c - vy p) DD); auto; lra.
  - (* c above *)
    destruct (one_above ga al be (vy c - vy p) (vy a - vy p) (vy b - vy p) DD) as [(X & Y & W)|(X & [Y|Y])]; try lra;
      signs; leaf.
  - destruct (one_above be ga al (vy b - vy p) (vy c - vy p) (vy a - vy p) DD) as [(X & Y & W)|(X & [Y|Y])]; try lra; signs; leaf.
  - destruct (one_below al be ga (vy a - vy p) (vy b - vy p) (vy c - vy p) DD) as [(X & Y & W)|(X & [Y|Y])]; try lra; signs; leaf.
  - destruct (one_above al be ga (vy a - vy p) (vy b - vy p) (vy c - vy p) DD) as [(X & Y & W)|(X & [Y|Y])]; try lra; signs; leaf.
  - destruct (one_below be ga al (vy b - vy p) (vy c - vy p) (vy a - vy p) DD) as [(X & Y & W)|(X & [Y|Y])]; try lra; signs; leaf.
  - destruct (one_below ga al be (vy c - vy p) (vy a - vy p) (vy b - vy p) DD) as [(X & Y & W)|(X & [Y|Y])]; try lra; signs; leaf.
  - left. split; [reflexivity|]. apply (all_above al be ga (vy a - vy p) (vy b - vy p) (vy c - vy p)); auto; lra.
Qed.

(* quads *)
Definition mem4 (p a b c d : vec2) : Q := crossing p a b + crossing p b c + crossing p c d + crossing p d a.
Lemma mem4_turn p a b c d : mem4 p b c d a == mem4 p a b c d.
Proof. unfold mem4. ring. Qed.
Lemma mem4_split p a b c d : mem4 p a b c d == mem p a b c + mem p a c d.
Proof. unfold mem4, mem. rewrite (crossing_antisym p a c). ring. Qed.

Lemma crossing_on p a b : det a b p == 0 -> crossing p a b == 0.
Proof.
  intros H. assert (T := det_swap a b p). unfold crossing. destruct (Qle_bool (vy a) (vy p)), (Qle_bool (vy b) (vy p)); try reflexivity.
  - qcase (det a b p) 0; [reflexivity|lra].
  - qcase (det b a p) 0; [reflexivity|lra].
Qed.
Lemma crossing_down p a b : vy p < vy a -> crossing p a b <= 0.
Proof.
  intros H. unfold crossing. qcase (vy a) (vy p); [lra|]. destruct (Qle_bool (vy b) (vy p)); [|lra].
  destruct (Qle_bool (det b a p) 0); lra.
Qed.
Lemma crossing_below p a b : vy b <= vy p -> crossing p a b <= 0.
Proof.
  intros H. unfold crossing. qcase (vy b) (vy p); [|lra]. destruct (Qle_bool (vy a) (vy p)); [lra|].
  destruct (Qle_bool (det b a p) 0); lra.
Qed.
Lemma mul_zero x y : 0 < x -> x * y == 0 -> y == 0.
Proof. intros. nra. Qed.
(* p on the line through c and a: not owned if the side runs upwards past p, ... *)
Lemma side_up p a b c : det c a p == 0 -> vy c <= vy p -> vy p < vy a -> mem p a b c <= 0.
Proof.
  intros H C A. unfold mem. rewrite (crossing_on p c a H). assert (X := crossing_below p b c C).
  assert (Y := crossing_down p a b A). lra.
Qed.
(* both quad triangles cannot own p *)
Lemma not_both p a b c d : cuts a b c d -> mem p a b c == 1 -> mem p a c d == 1 -> False.
Proof.
  intros [D1 D2] M1 M2.
  destruct (mem_cases p a b c D1) as [[? _]|(_ & A1 & B1 & C1)]; [lra|].
  destruct (mem_cases p a c d D2) as [[? _]|(_ & A2 & B2 & C2)]; [lra|].
  assert (T := det_swap a c p). assert (Z : det a c p == 0) by lra. assert (Z' : det c a p == 0) by lra.
  destruct (Qlt_le_dec (vy p) (vy a)) as [Ha|Ha], (Qlt_le_dec (vy p) (vy c)) as [Hc|Hc].
  - (* both above: p is not between a and c *)
    assert (H := det_height a b c p). assert (S := det_sum a b c p). rewrite Z' in H.
    set (al := det a b p) in *. set (be := det b c p) in *. clearbody al be.
    assert (Q1 : 0 <= be * (vy a - vy p)) by nra. assert (Q2 : 0 <= al * (vy c - vy p)) by nra.
    assert (R1 : be == 0) by (apply (mul_zero (vy a - vy p)); lra). assert (R2 : al == 0) by (apply (mul_zero (vy c - vy p)); lra). lra.
  - (* a above, c at or below *) assert (X := side_up p a b c Z' Hc Ha). lra.
  - assert (X := side_up p c d a Z Ha Hc). assert (Y := mem_turn p a c d). lra.
  - (* both at or below *)
    assert (X := crossing_below p). unfold mem in M1, M2. rewrite (crossing_on p c a Z') in M1. rewrite (crossing_on p a c Z) in M2.
    assert (X1 := X b c Hc). assert (X2 := X d a Ha).
    assert (P1 : ~ det a b p == 0) by (intros E; rewrite (crossing_on p a b E) in M1; lra).
    assert (P2 : ~ det c d p == 0) by (intros E; rewrite (crossing_on p c d E) in M2; lra).
    assert (P1' : 0 < det a b p) by lra. assert (P2' : 0 < det c d p) by lra.
    assert (H1 := det_height a b c p). assert (H2 := det_height a c d p). rewrite Z' in H1. rewrite Z in H2.
    assert (S1 := det_sum a b c p). assert (S2 := det_sum a c d p).
    destruct (Qlt_le_dec (vy p) (vy b)) as [Hb|Hb]; [|assert (Y := X a b Hb); lra].
    destruct (Qlt_le_dec (vy p) (vy d)) as [Hd|Hd]; [|assert (Y := X c d Hd); lra].
    assert (Ec : vy c - vy p == 0).
    { apply (mul_zero (det a b p)); [exact P1'|]. set (al := det a b p) in *. set (be := det b c p) in *. clearbody al be. clear - H1 B1 P1' Ha Hc. nra. }
    assert (Ea : vy a - vy p == 0).
    { apply (mul_zero (det c d p)); [exact P2'|]. set (al := det c d p) in *. set (be := det d a p) in *. clearbody al be. clear - H2 C2 P2' Ha Hc. nra. }
    unfold det in D1, D2. assert (F1 : vy c == vy a) by lra. assert (F2 : 0 < vy b - vy a) by lra. assert (F3 : 0 < vy d - vy a) by lra.
    rewrite F1 in D1, D2. clear - D1 D2 F2 F3. nra.
Qed.
Lemma crossing_left p a b : 0 < det a b p -> (crossing p a b == 1 /\ vy a <= vy p < vy b) \/ (crossing p a b == 0 /\ (vy a <= vy p -> vy b <= vy p)).
Proof.
  intros H. assert (T := det_swap a b p). unfold crossing. qcase (vy a) (vy p); qcase (vy b) (vy p).
  - right. split; [reflexivity|lra].
  - qcase (det a b p) 0; [lra|]. left. split; [reflexivity|lra].
  - qcase (det b a p) 0; [|lra]. right. split; [reflexivity|lra].
  - right. split; [reflexivity|lra].
Qed.

Lemma mem4_cases p a b c d : cuts a b c d ->
  (mem4 p a b c d == 0 /\ ~ within4 p a b c d) \/ (mem4 p a b c d == 1 /\ touching4 p a b c d).
Proof.
  intros D. assert (NB := not_both p a b c d D). destruct D as [D1 D2]. rewrite mem4_split.
  destruct (mem_cases p a b c D1) as [[E1 N1]|(E1 & T1)], (mem_cases p a c d D2) as [[E2 N2]|(E2 & T2)].
  - left. split; [rewrite E1, E2; reflexivity|]. intros [W|[W|W]]; [exact (N1 W)|exact (N2 W)|].
    destruct W as (Z & A & B & C & E).
    assert (S := mem4_split p a b c d). rewrite E1, E2 in S. unfold mem4 in S.
    assert (H1 := det_height a b c p). assert (H2 := det_height a c d p). assert (T := det_swap a c p).
    assert (Z' : det c a p == 0) by lra. rewrite Z' in H1. rewrite Z in H2.
    set (al := det a b p) in *. set (be := det b c p) in *. set (ga := det c d p) in *. set (de := det d a p) in *.
    destruct (crossing_left p a b A) as [[C1 K1]|[C1 K1]], (crossing_left p b c B) as [[C2 K2]|[C2 K2]],
      (crossing_left p c d C) as [[C3 K3]|[C3 K3]], (crossing_left p d a E) as [[C4 K4]|[C4 K4]]; try lra.
    destruct (Qlt_le_dec (vy p) (vy a)) as [Ha|Ha].
    + (* all above *)
      destruct (Qlt_le_dec (vy p) (vy d)) as [Hd|Hd]; [|exfalso; specialize (K4 Hd); lra].
      destruct (Qlt_le_dec (vy p) (vy c)) as [Hc|Hc]; [|exfalso; specialize (K3 Hc); lra].
      clearbody al be. clear - H1 A B Ha Hc. nra.
    + specialize (K1 Ha). specialize (K2 K1). specialize (K3 K2).
      assert (Ec : vy c - vy p == 0) by (apply (mul_zero al); [exact A|clearbody al be; clear - H1 A B Ha K2; nra]).
      assert (Ea : vy a - vy p == 0) by (apply (mul_zero be); [exact B|clearbody al be; clear - H1 A B Ha K2; nra]).
      unfold det in D1, D2. assert (F1 : vy c == vy a) by lra. assert (F2 : vy b - vy a <= 0) by lra. assert (F3 : vy d - vy a <= 0) by lra.
      rewrite F1 in D1, D2. clear - D1 D2 F2 F3.
      assert (G1 : 0 < - (vx c - vx a) * (vy b - vy a)) by lra. assert (G2 : 0 < (vx c - vx a) * (vy d - vy a)) by lra.
      apply neg_mul in G1; [|exact F2]. apply neg_mul in G2; [|exact F3]. lra.
  - right. split; [rewrite E1, E2; reflexivity|]. right. exact T2.
  - right. split; [rewrite E1, E2; reflexivity|]. left. exact T1.
  - exfalso. auto.
Qed.

(* elements *)
Definition shape_sides (s : shape) : list (nat * nat) := ring_edges (corners s).
Definition at_pos (pos : nat -> vec2) (p : vec2) (a b : nat) : Q := crossing p (pos a) (pos b).
Lemma at_pos_antisym pos p : antisym (at_pos pos p).
Proof. intros a b. apply crossing_antisym. Qed.

Lemma shape_owned pos p s : simple_shape pos s -> exists b : bool,
  (inside_shape pos s p -> b = true) /\ (b = true -> in_closure pos s p) /\
  esum (at_pos pos p) (shape_sides s) == (if b then 1 else 0).
Proof.
  destruct s as [a b c|a b c d]; intros H.
  - assert (E : esum (at_pos pos p) (shape_sides (Tri3 a b c)) == mem p (pos a) (pos b) (pos c)).
    { unfold shape_sides, mem, at_pos. cbn. ring. }
    destruct (mem_cases p _ _ _ H) as [[M N]|[M T]].
    + exists false. split; [intros W; destruct (N W)|]. split; [discriminate|]. rewrite E. exact M.
    + exists true. split; [reflexivity|]. split; [intros _; exact T|]. rewrite E. exact M.
  - assert (E : esum (at_pos pos p) (shape_sides (Quad4 a b c d)) == mem4 p (pos a) (pos b) (pos c) (pos d)).
    { unfold shape_sides, mem4, at_pos. cbn. ring. }
    assert (T := mem4_turn p (pos a) (pos b) (pos c) (pos d)).
    assert (G : forall W, (mem4 p (pos a) (pos b) (pos c) (pos d) == 1 -> W) -> 
       (mem4 p (pos a) (pos b) (pos c) (pos d) == 0 \/ mem4 p (pos a) (pos b) (pos c) (pos d) == 1) ->
       (W -> in_closure pos (Quad4 a b c d) p) ->
       exists b0 : bool, (inside_shape pos (Quad4 a b c d) p -> b0 = true) /\ (b0 = true -> in_closure pos (Quad4 a b c d) p) /\
         esum (at_pos pos p) (shape_sides (Quad4 a b c d)) == (if b0 then 1 else 0)).
    { intros W HW [Z|O] K.
      - exists false. split; [|split; [discriminate|rewrite E; exact Z]]. intros [[C I]|[C I]].
        + destruct (mem4_cases p _ _ _ _ C) as [[_ N]|[M _]]; [destruct (N I)|lra].
        + destruct (mem4_cases p _ _ _ _ C) as [[_ N]|[M _]]; [destruct (N I)|lra].
      - exists true. split; [reflexivity|]. split; [intros _; apply K, HW, O|rewrite E; exact O]. }
    destruct H as [C|C]; destruct (mem4_cases p _ _ _ _ C) as [[M N]|[M I]].
    + apply (G False); [lra|left; exact M|intros []].
    + apply (G True); [auto|right; exact M|]. intros _. left. split; assumption.
    + apply (G False); [lra|left; lra|intros []].
    + apply (G True); [auto|right; lra|]. intros _. right. split; assumption.
Qed.

Lemma all_owned pos p ss : (forall s, In s ss -> simple_shape pos s) ->
  exists bs, owns pos p ss bs /\ how_many bs == esum (at_pos pos p) (flat_map shape_sides ss).
Proof.
  induction ss as [|s ss IH]; intros H; [exists []; split; [constructor|reflexivity]|].
  destruct IH as [bs [O C]]; [intros; apply H; right; assumption|].
  destruct (shape_owned pos p s (H s (or_introl eq_refl))) as [b [B1 [B2 B3]]].
  exists (b :: bs). split; [constructor; [split; assumption|exact O]|].
  unfold how_many in *. cbn [map sumQ flat_map]. rewrite esum_app, B3, C. reflexivity.
Qed.

(* consequences of [tiles] *)
Lemma how_many_nonneg bs : 0 <= how_many bs.
Proof. unfold how_many. induction bs as [|[] bs IH]; cbn [map sumQ]; lra. Qed.
Lemma how_many_one bs i : nth_error bs i = Some true -> 1 <= how_many bs.
Proof.
  revert bs. induction i as [|i IH]; intros [|b bs] E; try discriminate; unfold how_many; cbn [map sumQ]; cbn in E.
  - injection E as ->. assert (N := how_many_nonneg bs). unfold how_many in N. lra.
  - specialize (IH bs E). unfold how_many in IH. destruct b; lra.
Qed.
Lemma how_many_two bs i j : nth_error bs i = Some true -> nth_error bs j = Some true -> i <> j -> 2 <= how_many bs.
Proof.
  revert i j. induction bs as [|b bs IH]; intros [|i] [|j] E F N; cbn in E, F; try discriminate; try congruence; unfold how_many; cbn [map sumQ].
  - injection E as ->. assert (G := how_many_one bs j F). unfold how_many in G. lra.
  - injection F as ->. assert (G := how_many_one bs i E). unfold how_many in G. lra.
  - assert (G := IH i j E F (fun H => N (f_equal S H))). unfold how_many in G. destruct b; lra.
Qed.
Lemma how_many_some bs : 1 <= how_many bs -> exists i, nth_error bs i = Some true.
Proof.
  induction bs as [|[] bs IH]; unfold how_many; cbn [map sumQ]; intros H; [lra|exists 0%nat; reflexivity|].
  destruct IH as [i E]; [unfold how_many; lra|]. exists (S i). exact E.
Qed.
Lemma owns_nth pos p ss bs : owns pos p ss bs -> forall i s, nth_error ss i = Some s ->
  exists b, nth_error bs i = Some b /\ (inside_shape pos s p -> b = true) /\ (b = true -> in_closure pos s p).
Proof.
  induction 1 as [|s b ss bs [H1 H2] _ IH]; intros [|i] t E; cbn in E; try discriminate.
  - injection E as <-. exists b. auto.
  - exact (IH i t E).
Qed.
Lemma owns_nth' pos p ss bs : owns pos p ss bs -> forall i b, nth_error bs i = Some b -> exists s, nth_error ss i = Some s /\ (b = true -> in_closure pos s p).
Proof.
  induction 1 as [|s b ss bs [H1 H2] _ IH]; intros [|i] t E; cbn in E; try discriminate.
  - injection E as <-. exists s. auto.
  - exact (IH i t E).
Qed.
Lemma tiles_disjoint pos ss region : tiles pos ss region -> simple_region region ->
  forall i j s t p, nth_error ss i = Some s -> nth_error ss j = Some t ->
    inside_shape pos s p -> inside_shape pos t p -> i = j.
Proof.
  intros T R i j s t p Hi Hj Is It. destruct (T p) as [bs [O C]]. specialize (R p).
  destruct (owns_nth pos p ss bs O i s Hi) as [b [B1 [B2 _]]]. destruct (owns_nth pos p ss bs O j t Hj) as [c [C1 [C2 _]]].
  rewrite (B2 Is) in B1. rewrite (C2 It) in C1.
  destruct (Nat.eq_dec i j) as [E|E]; [exact E|]. assert (G := how_many_two bs i j B1 C1 E). lra.
Qed.
Lemma tiles_cover pos ss region p : tiles pos ss region -> 1 <= region p -> exists s, In s ss /\ in_closure pos s p.
Proof.
  intros T R. destruct (T p) as [bs [O C]]. destruct (how_many_some bs) as [i E]; [lra|].
  destruct (owns_nth' pos p ss bs O i true E) as [s [Hs K]]. exists s. split; [exact (nth_error_In _ _ Hs)|auto].
Qed.
Lemma tiles_only pos ss region p s : tiles pos ss region -> In s ss -> inside_shape pos s p -> 1 <= region p.
Proof.
  intros T Hs I. destruct (T p) as [bs [O C]]. destruct (In_nth_error _ _ Hs) as [i E].
  destruct (owns_nth pos p ss bs O i s E) as [b [B1 [B2 _]]]. rewrite (B2 I) in B1. assert (G := how_many_one bs i B1). lra.
Qed.
Lemma tiles_nonneg pos ss region p : tiles pos ss region -> 0 <= region p.
Proof. intros T. destruct (T p) as [bs [O C]]. rewrite <- C. apply how_many_nonneg. Qed.

Lemma how_many_pos bs : 0 < how_many bs -> 1 <= how_many bs.
Proof. unfold how_many. induction bs as [|[] bs IH]; cbn [map sumQ]; intros H; [lra| |]; assert (N := how_many_nonneg bs); unfold how_many in N; [lra|]. lra. Qed.
Lemma tiles_pos pos ss region p : tiles pos ss region -> 0 < region p -> 1 <= region p.
Proof. intros T. destruct (T p) as [bs [O C]]. rewrite <- C. apply how_many_pos. Qed.

(* a segment and its parts *)
Lemma crossing_cut p a b m t : vx m == vx a + t * (vx b - vx a) -> vy m == vy a + t * (vy b - vy a) ->
  crossing p a b == crossing p a m + crossing p m b.
Proof.
  intros X Y.
  assert (D1 : det a m p == t * det a b p) by (unfold det; rewrite X, Y; ring).
  assert (D2 : det m b p == (1 - t) * det a b p) by (unfold det; rewrite X, Y; ring).
  assert (T0 := det_swap a b p). assert (T1 := det_swap a m p). assert (T2 := det_swap m b p).
  unfold crossing. set (D := det a b p) in *. set (A := det a m p) in *. set (B := det m b p) in *.
  set (D' := det b a p) in *. set (A' := det m a p) in *. set (B' := det b m p) in *. clearbody D A B D' A' B'. clear X.
  set (ya := vy a) in *. set (yb := vy b) in *. set (ym := vy m) in *. set (yp := vy p) in *. clearbody ya yb ym yp.
  qcase ya yp; qcase yb yp; qcase ym yp; cbv iota; signs; try reflexivity; exfalso.
  all: try (first [assert (0 < t) by nra | assert (t < 0) by nra | assert (0 < 1 - t) by nra | assert (1 - t < 0) by nra]; nra).
Qed.

Lemma qle_bool_eq a a' b b' : a == a' -> b == b' -> Qle_bool a b = Qle_bool a' b'.
Proof.
  intros H K. qcase a b; qcase a' b'; try reflexivity; exfalso; lra.
Qed.
Lemma crossing_eq p a b a' b' : veq a a' -> veq b b' -> crossing p a b == crossing p a' b'.
Proof.
  intros [A1 A2] [B1 B2]. unfold crossing.
  rewrite (qle_bool_eq _ _ (vy p) (vy p) A2 (Qeq_refl _)), (qle_bool_eq _ _ (vy p) (vy p) B2 (Qeq_refl _)).
  assert (D : det a b p == det a' b' p) by (unfold det; rewrite A1, A2, B1, B2; reflexivity).
  assert (D' : det b a p == det b' a' p) by (unfold det; rewrite A1, A2, B1, B2; reflexivity).
  rewrite (qle_bool_eq _ _ 0 0 D (Qeq_refl _)), (qle_bool_eq _ _ 0 0 D' (Qeq_refl _)). reflexivity.
Qed.
Lemma crossing_self p a : crossing p a a == 0.
Proof. assert (H := crossing_antisym p a a). lra. Qed.
(* three points of one line, in any order *)
Lemma crossing_line o p q x y z r s t :
  veq x (vadd p (vscale r (vsub q p))) -> veq y (vadd p (vscale s (vsub q p))) -> veq z (vadd p (vscale t (vsub q p))) ->
  crossing o x z == crossing o x y + crossing o y z.
Proof.
  intros [X1 X2] [Y1 Y2] [Z1 Z2]. unfold vadd, vscale, vsub in *. cbn [vx vy] in *.
  destruct (Qeq_dec r t) as [E|N].
  - assert (V : veq x z) by (split; [rewrite X1, Z1, E|rewrite X2, Z2, E]; reflexivity).
    rewrite (crossing_eq o x z z z V (conj (Qeq_refl _) (Qeq_refl _))), crossing_self.
    rewrite (crossing_eq o x y z y V (conj (Qeq_refl _) (Qeq_refl _))), (crossing_antisym o z y). ring.
  - assert (K : ~ t - r == 0) by (intros K; apply N; lra).
    apply (crossing_cut o x z y ((s - r) / (t - r))).
    + rewrite X1, Y1, Z1. field. exact K.
    + rewrite X2, Y2, Z2. field. exact K.
Qed.
