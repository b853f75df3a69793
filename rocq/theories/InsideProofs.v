From Coq Require Import Lqa Lia Permutation Qfield.
From Verif Require Import Base Chain GeomModel GeomSpec GeomProofs UtilModel UtilProofs BdryModel BdrySpec InsideSpec.
Open Scope Q_scope.

(* ---------------- order independence ---------------- *)
Definition parity (o : vec2) (es : list (vec2 * vec2)) : bool :=
  fold_right (fun e acc => xorb (crosses o (fst e) (snd e)) acc) false es.
Definition touched (o : vec2) (es : list (vec2 * vec2)) : bool :=
  existsb (fun e => touches o (fst e) (snd e)) es.

Lemma inside_loop_eq o es c : inside_loop o es c = touched o es || xorb c (parity o es).
Proof.
  revert c. induction es as [|[a b] es IH]; intros c; cbn [inside_loop touched existsb parity fold_right fst snd].
  - rewrite xorb_false_r. reflexivity.
  - destruct (touches o a b); [reflexivity|]. rewrite IH. cbn [orb]. fold (touched o es). fold (parity o es).
    destruct (crosses o a b), c, (parity o es); reflexivity.
Qed.
Lemma is_inside_eq es o : (3 <= length es)%nat -> is_inside es o = touched o es || parity o es.
Proof.
  intros H. unfold is_inside. rewrite (proj2 (Nat.ltb_ge _ _) H), inside_loop_eq. destruct (parity o es); reflexivity.
Qed.

Lemma parity_app o l l' : parity o (l ++ l') = xorb (parity o l) (parity o l').
Proof.
  induction l as [|e l IH]; cbn [app parity fold_right]; [rewrite xorb_false_l; reflexivity|].
  fold (parity o (l ++ l')). fold (parity o l). rewrite IH, xorb_assoc. reflexivity.
Qed.
Lemma parity_perm o l l' : Permutation l l' -> parity o l = parity o l'.
Proof.
  induction 1 as [|e l l' _ IH|e f l|l1 l2 l3 _ IH1 _ IH2]; cbn [parity fold_right].
  - reflexivity.
  - f_equal. exact IH.
  - fold (parity o l). destruct (crosses o (fst e) (snd e)), (crosses o (fst f) (snd f)), (parity o l); reflexivity.
  - congruence.
Qed.
Lemma existsb_perm {A} (f : A -> bool) l l' : Permutation l l' -> existsb f l = existsb f l'.
Proof.
  intros P. destruct (existsb f l) eqn:E.
  - apply existsb_exists in E. destruct E as (x & Hx & Hf). symmetry. apply existsb_exists. exists x.
    split; [exact (Permutation_in _ P Hx)|exact Hf].
  - destruct (existsb f l') eqn:E'; [|reflexivity]. apply existsb_exists in E'. destruct E' as (x & Hx & Hf).
    assert (existsb f l = true) by (apply existsb_exists; exists x; split; [exact (Permutation_in _ (Permutation_sym P) Hx)|exact Hf]).
    congruence.
Qed.
Lemma is_inside_perm es es' o : Permutation es es' -> is_inside es o = is_inside es' o.
Proof.
  intros P. unfold is_inside. rewrite (Permutation_length P), !inside_loop_eq.
  rewrite (parity_perm o _ _ P). unfold touched. rewrite (existsb_perm _ _ _ P). reflexivity.
Qed.

(* ---------------- crossing = sign of the side test ---------------- *)
Definition up (o a : vec2) : bool := Qleb (vy o) (vy a).

Lemma crosses_eq o a b : crosses o a b =
  match up o a, up o b with
  | true, false => Qltb 0 (det a b o)
  | false, true => Qltb (det a b o) 0
  | _, _ => false
  end.
Proof.
  unfold crosses, up, Qltb at 1 2. fold (Qleb (vy o) (vy b)). fold (Qleb (vy o) (vy a)).
  destruct (Qleb (vy o) (vy a)) eqn:A, (Qleb (vy o) (vy b)) eqn:B; cbn [negb andb orb]; try reflexivity; qbool.
  - set (x := vx b + (vy o - vy b) / (vy a - vy b) * (vx a - vx b)).
    assert (D : 0 < vy a - vy b) by lra.
    assert (E : (vy a - vy b) * (vx o - x) == det a b o) by (unfold x, det; field; lra).
    destruct (Qltb x (vx o)) eqn:X, (Qltb 0 (det a b o)) eqn:Y; try reflexivity; exfalso; qbool; rewrite <- E in Y; nra.
  - set (x := vx b + (vy o - vy b) / (vy a - vy b) * (vx a - vx b)).
    assert (D : 0 < vy b - vy a) by lra.
    assert (E : (vy b - vy a) * (vx o - x) == - det a b o) by (unfold x, det; field; lra).
    assert (E' : det a b o == - ((vy b - vy a) * (vx o - x))) by lra.
    destruct (Qltb x (vx o)) eqn:X, (Qltb (det a b o) 0) eqn:Y; try reflexivity; exfalso; qbool; rewrite E' in Y; nra.
Qed.

Lemma crosses_sym o a b : crosses o a b = crosses o b a.
Proof.
  rewrite !crosses_eq. assert (E : det b a o == - det a b o) by (unfold det; ring).
  destruct (up o a), (up o b); try reflexivity.
  - destruct (Qltb 0 (det a b o)) eqn:X, (Qltb (det b a o) 0) eqn:Y; try reflexivity; exfalso; qbool; lra.
  - destruct (Qltb (det a b o) 0) eqn:X, (Qltb 0 (det b a o)) eqn:Y; try reflexivity; exfalso; qbool; lra.
Qed.

(* ---------------- triangles ---------------- *)
Lemma bary_rows o a b c :
  det a b o * (vy c - vy o) + det b c o * (vy a - vy o) + det c a o * (vy b - vy o) == 0.
Proof. unfold det. ring. Qed.

Lemma tri_parity o a b c : off_lines o (sides3 a b c) ->
  parity o (sides3 a b c) = true <-> inside_tri o a b c.
Proof.
  intros Hoff. unfold sides3, off_lines in Hoff.
  assert (N1 := Hoff (a, b) ltac:(cbn; tauto)). assert (N2 := Hoff (b, c) ltac:(cbn; tauto)).
  assert (N3 := Hoff (c, a) ltac:(cbn; tauto)). cbn [fst snd] in *. clear Hoff.
  pose proof (bary_rows o a b c) as R. unfold sides3. cbn [parity fold_right fst snd].
  rewrite !crosses_eq. unfold inside_tri.
  assert (Flat : vy a == vy b -> vy b == vy c -> vy o == vy a -> False).
  { intros H1 H2 H3. apply N1. unfold det. rewrite <- H1, H3. ring. }
  set (d1 := det a b o) in *. set (d2 := det b c o) in *. set (d3 := det c a o) in *.
  unfold up in *.
  destruct (Qleb (vy o) (vy a)) eqn:A, (Qleb (vy o) (vy b)) eqn:B, (Qleb (vy o) (vy c)) eqn:C; cbn [xorb];
    apply Qleb_true in A || apply Qleb_false in A; apply Qleb_true in B || apply Qleb_false in B;
    apply Qleb_true in C || apply Qleb_false in C.
  all: clearbody d1 d2 d3; set (ya := vy a - vy o) in *; set (yb := vy b - vy o) in *; set (yc := vy c - vy o) in *.
  all: assert (A' : vy a == ya + vy o) by (unfold ya; ring); assert (B' : vy b == yb + vy o) by (unfold yb; ring);
    assert (C' : vy c == yc + vy o) by (unfold yc; ring); rewrite A' in A, Flat; rewrite B' in B, Flat; rewrite C' in C, Flat;
    clearbody ya yb yc; clear A' B' C'.
  all: try (split; [discriminate|]; intros [(P1 & P2 & P3)|(P1 & P2 & P3)]; exfalso; clear N1 N2 N3;
    first [ apply Flat; nra | nra ]).
  all: repeat match goal with |- context [Qltb ?x ?y] => let E := fresh "E" in destruct (Qltb x y) eqn:E;
         [apply Qltb_true in E|apply Qltb_false in E] end; cbn [xorb].
  all: assert (M1 : d1 < 0 \/ 0 < d1) by (destruct (Q_dec d1 0) as [[?|?]|?]; tauto);
    assert (M2 : d2 < 0 \/ 0 < d2) by (destruct (Q_dec d2 0) as [[?|?]|?]; tauto);
    assert (M3 : d3 < 0 \/ 0 < d3) by (destruct (Q_dec d3 0) as [[?|?]|?]; tauto); clear N1 N2 N3 Flat.
  all: destruct M1, M2, M3; first [lra | split; [discriminate|]; intros [(P1 & P2 & P3)|(P1 & P2 & P3)]; lra
     | split; intros _; [|reflexivity]; first [left; repeat split; assumption | right; repeat split; assumption | exfalso; nra]].
Qed.

(* ---------------- polygons ---------------- *)
Lemma path_edges_app {V} (a : V) l b l' : path_edges a (l ++ b :: l') = path_edges a (l ++ [b]) ++ path_edges b l'.
Proof. revert a. induction l as [|c l IH]; intros a; cbn [app path_edges]; [reflexivity|]. rewrite IH. reflexivity. Qed.

Lemma ring_turn {V} (a : V) l : Permutation (ring_edges (l ++ [a])) (ring_edges (a :: l)).
Proof.
  destruct l as [|b l]; [reflexivity|]. cbn [ring_edges app]. rewrite <- app_assoc. cbn [app].
  rewrite path_edges_app. cbn [path_edges]. symmetry. apply Permutation_cons_append.
Qed.
Lemma ring_turn_app {V} (l1 l2 : list V) : Permutation (ring_edges (l1 ++ l2)) (ring_edges (l2 ++ l1)).
Proof.
  revert l2. induction l1 as [|a l1 IH]; intros l2; [rewrite app_nil_r; reflexivity|].
  cbn [app]. rewrite <- ring_turn, <- app_assoc, IH, <- app_assoc. reflexivity.
Qed.

Lemma parity_cut o a l1 b l2 : parity o (ring_edges (a :: l1 ++ b :: l2)) =
  xorb (parity o (ring_edges (a :: l1 ++ [b]))) (parity o (ring_edges (b :: l2 ++ [a]))).
Proof.
  cbn [ring_edges]. rewrite <- !app_assoc. cbn [app].
  rewrite (path_edges_app a l1 b (l2 ++ [a])), (path_edges_app a l1 b [a]), (path_edges_app b l2 a [b]).
  rewrite !parity_app. cbn [path_edges parity fold_right fst snd]. rewrite (crosses_sym o b a).
  destruct (parity o (path_edges a (l1 ++ [b]))), (parity o (path_edges b (l2 ++ [a]))), (crosses o a b); reflexivity.
Qed.

Lemma odd_app l l' : odd_number (l ++ l') = xorb (odd_number l) (odd_number l').
Proof.
  induction l as [|b l IH]; cbn [odd_number app fold_right]; [rewrite xorb_false_l; reflexivity|].
  fold (odd_number (l ++ l')). fold (odd_number l). rewrite IH, xorb_assoc. reflexivity.
Qed.

Lemma cut_length l T : cut_up l T -> (3 <= length l)%nat.
Proof.
  induction 1 as [a b c|a l1 b l2 T1 T2 _ IH1 _ IH2|l1 l2 T _ IH].
  - cbn. lia.
  - cbn [length] in *. rewrite app_length in *. cbn [length] in *. lia.
  - rewrite app_length in *. lia.
Qed.

Lemma cut_sides l T : cut_up l T -> forall e, In e (ring_edges l) -> In e (tri_sides T).
Proof.
  induction 1 as [a b c|a l1 b l2 T1 T2 _ IH1 _ IH2|l1 l2 T _ IH]; intros e He.
  - cbn in *. tauto.
  - unfold tri_sides. rewrite flat_map_app, in_app_iff. cbn [ring_edges] in He.
    rewrite <- app_assoc in He. cbn [app] in He. rewrite path_edges_app, in_app_iff in He. destruct He as [He|He].
    + left. apply IH1. cbn [ring_edges]. rewrite <- app_assoc. cbn [app]. rewrite path_edges_app, in_app_iff. auto.
    + right. apply IH2. cbn [ring_edges]. rewrite <- app_assoc. cbn [app]. rewrite path_edges_app, in_app_iff. auto.
  - apply IH. eapply Permutation_in; [apply ring_turn_app|exact He].
Qed.

Lemma polygon_parity o l T : cut_up l T -> forall bs, off_lines o (tri_sides T) -> counts o T bs ->
  parity o (ring_edges l) = odd_number bs.
Proof.
  induction 1 as [a b c|a l1 b l2 T1 T2 _ IH1 _ IH2|l1 l2 T _ IH]; intros bs Hoff Hc.
  - inversion Hc as [|t x ? r Hx Hr]; subst. inversion Hr; subst. cbn in Hx. cbn [odd_number fold_right].
    rewrite xorb_false_r. change (ring_edges [a; b; c]) with (sides3 a b c).
    assert (P := tri_parity o a b c Hoff). rewrite <- Hx in P.
    destruct (parity o (sides3 a b c)), x; intuition congruence.
  - apply Forall2_app_inv_l in Hc. destruct Hc as (b1 & b2 & H1 & H2 & ->).
    rewrite parity_cut, odd_app. f_equal.
    + apply IH1; [|exact H1]. intros e He. apply Hoff. unfold tri_sides in *. rewrite flat_map_app, in_app_iff. auto.
    + apply IH2; [|exact H2]. intros e He. apply Hoff. unfold tri_sides in *. rewrite flat_map_app, in_app_iff. auto.
  - rewrite (parity_perm o _ _ (ring_turn_app l2 l1)). apply IH; assumption.
Qed.

Lemma not_touched o es : off_lines o es -> exact_rows o es -> touched o es = false.
Proof.
  intros Hoff Hrow. unfold touched. destruct (existsb _ es) eqn:E; [|reflexivity].
  apply existsb_exists in E. destruct E as ([a b] & Hab & H). cbn [fst snd] in H. exfalso.
  apply (Hoff _ Hab). cbn [fst snd]. destruct (Hrow _ Hab) as [R1 R2]. cbn [fst snd] in R1, R2.
  unfold touches in H. apply orb_true_iff in H. destruct H as [H|H]; [apply orb_true_iff in H; destruct H as [H|H]|].
  - apply veqb_true in H. destruct H as [X Y]. unfold det. rewrite X, Y. ring.
  - apply veqb_true in H. destruct H as [X Y]. unfold det. rewrite X, Y. ring.
  - qbool. unfold det. rewrite (R1 H1) in *. assert (vy b == vy a) by (rewrite <- R2, <- R1; auto; reflexivity).
    rewrite H2. ring.
Qed.

Lemma inside_polygon o l T bs : cut_up l T -> counts o T bs ->
  off_lines o (tri_sides T) -> exact_rows o (ring_edges l) ->
  is_inside (ring_edges l) o = odd_number bs.
Proof.
  intros C Hc Hoff Hrow. rewrite is_inside_eq by (rewrite ring_edges_length; exact (cut_length _ _ C)).
  rewrite not_touched; [|intros e He; apply Hoff; exact (cut_sides _ _ C e He)|exact Hrow].
  cbn [orb]. exact (polygon_parity o l T C bs Hoff Hc).
Qed.

(* ---------------- outside the bounding box ---------------- *)
Lemma path_up o a l b :
  fold_right (fun e acc => xorb (xorb (up o (fst e)) (up o (snd e))) acc) false (path_edges a (l ++ [b])) =
  xorb (up o a) (up o b).
Proof.
  revert a. induction l as [|c l IH]; intros a; cbn [app path_edges fold_right fst snd].
  - rewrite xorb_false_r. reflexivity.
  - rewrite IH. destruct (up o a), (up o b), (up o c); reflexivity.
Qed.
Lemma ring_up o l :
  fold_right (fun e acc => xorb (xorb (up o (fst e)) (up o (snd e))) acc) false (ring_edges l) = false.
Proof. destruct l as [|a l]; [reflexivity|]. cbn [ring_edges]. rewrite path_up. apply xorb_nilpotent. Qed.

Lemma ring_members {V} (l : list V) e : In e (ring_edges l) -> In (fst e) l /\ In (snd e) l.
Proof.
  assert (P : forall a m, In e (path_edges a m) -> In (fst e) (a :: m) /\ In (snd e) (a :: m)).
  { intros a m. revert a. induction m as [|b m IH]; intros a; cbn [path_edges In]; [tauto|].
    intros [<-|H]; [cbn; tauto|]. specialize (IH b H). cbn in *. tauto. }
  destruct l as [|a l]; [intros []|]. cbn [ring_edges]. intros H. apply P in H.
  cbn [In] in *. rewrite !in_app_iff in H. cbn in H. tauto.
Qed.

Lemma fold_parity_ext o (f : vec2 * vec2 -> bool) es : (forall e, In e es -> crosses o (fst e) (snd e) = f e) ->
  parity o es = fold_right (fun e acc => xorb (f e) acc) false es.
Proof.
  intros H. unfold parity. induction es as [|e es IH]; cbn [fold_right]; [reflexivity|].
  rewrite H by (left; reflexivity). rewrite IH; [reflexivity|]. intros. apply H. right. assumption.
Qed.
Lemma fold_false es : fold_right (fun (_ : vec2 * vec2) acc => xorb false acc) false es = false.
Proof. induction es; cbn [fold_right]; [reflexivity|]. rewrite IHes. reflexivity. Qed.

Lemma outside_box o l : exact_rows o (ring_edges l) -> (forall e, In e (ring_edges l) -> ~ veq (fst e) (snd e)) ->
  (forall v, In v l -> vx o < vx v) \/ (forall v, In v l -> vx v < vx o) \/
  (forall v, In v l -> vy o < vy v) \/ (forall v, In v l -> vy v < vy o) ->
  is_inside (ring_edges l) o = false.
Proof.
  intros Hrow Hne Hout. destruct (Nat.lt_ge_cases (length (ring_edges l)) 3) as [Hn|Hn].
  { unfold is_inside. rewrite (proj2 (Nat.ltb_lt _ _) Hn). reflexivity. }
  rewrite is_inside_eq by exact Hn.
  assert (Ht : touched o (ring_edges l) = false).
  { unfold touched. destruct (existsb _ _) eqn:E; [|reflexivity]. exfalso.
    apply existsb_exists in E. destruct E as ([a b] & Hab & H). cbn [fst snd] in H.
    destruct (ring_members l _ Hab) as [Ia Ib]. cbn [fst snd] in Ia, Ib.
    destruct (Hrow _ Hab) as [R1 R2]. cbn [fst snd] in R1, R2.
    unfold touches in H. apply orb_true_iff in H. destruct H as [H|H]; [apply orb_true_iff in H; destruct H as [H|H]|].
    - apply veqb_true in H. destruct H as [X Y].
      destruct Hout as [W|[W|[W|W]]]; specialize (W a Ia); lra.
    - apply veqb_true in H. destruct H as [X Y].
      destruct Hout as [W|[W|[W|W]]]; specialize (W b Ib); lra.
    - qbool. apply R1 in H1. apply R2 in H. apply in_on_segment_iff in H0.
      destruct H0 as (_ & _ & T1 & T2). unfold vnorm2, vdot, vsub in T1, T2. cbn [vx vy] in T1, T2.
      assert (Yab : vy b == vy a) by lra. rewrite Yab in T1, T2. rewrite H1 in T1, T2.
      assert (Hq : ~ vx b - vx a == 0) by (intros Hq; apply (Hne _ Hab); cbn [fst snd]; split; lra).
      destruct Hout as [W|[W|[W|W]]]; pose proof (W a Ia) as Wa; pose proof (W b Ib) as Wb; [| |lra|lra].
      + set (p := vx o - vx a) in *. set (q := vx b - vx a) in *.
        assert (P : p < 0) by (unfold p; lra). assert (Q' : p < q) by (unfold p, q; lra).
        clearbody p q. clear - T1 T2 P Q' Hq. destruct (Q_dec q 0) as [[?|?]|?]; [nra|nra|tauto].
      + set (p := vx o - vx a) in *. set (q := vx b - vx a) in *.
        assert (P : 0 < p) by (unfold p; lra). assert (Q' : q < p) by (unfold p, q; lra).
        clearbody p q. clear - T1 T2 P Q' Hq. destruct (Q_dec q 0) as [[?|?]|?]; [nra|nra|tauto]. }
  rewrite Ht. cbn [orb].
  assert (NoStraddle : (forall v, In v l -> up o v = true) \/ (forall v, In v l -> up o v = false) -> parity o (ring_edges l) = false).
  { intros HS. rewrite (fold_parity_ext o (fun _ => false)); [apply fold_false|].
    intros [a b] He. destruct (ring_members l _ He) as [Ia Ib]. cbn [fst snd] in *. rewrite crosses_eq.
    destruct HS as [HS|HS]; rewrite !HS by assumption; reflexivity. }
  destruct Hout as [W|[W|[W|W]]].
  - rewrite (fold_parity_ext o (fun _ => false)); [apply fold_false|].
    intros [a b] He. destruct (ring_members l _ He) as [Ia Ib]. cbn [fst snd] in *. rewrite crosses_eq.
    pose proof (W a Ia) as Wa. pose proof (W b Ib) as Wb. unfold up.
    destruct (Qleb (vy o) (vy a)) eqn:A, (Qleb (vy o) (vy b)) eqn:B; try reflexivity; qbool;
      apply Qltb_false; unfold det; nra.
  - rewrite (fold_parity_ext o (fun e => xorb (up o (fst e)) (up o (snd e)))); [apply ring_up|].
    intros [a b] He. destruct (ring_members l _ He) as [Ia Ib]. cbn [fst snd] in *. rewrite crosses_eq.
    pose proof (W a Ia) as Wa. pose proof (W b Ib) as Wb. unfold up.
    destruct (Qleb (vy o) (vy a)) eqn:A, (Qleb (vy o) (vy b)) eqn:B; try reflexivity; qbool; cbn [xorb];
      apply Qltb_true; unfold det; nra.
  - apply NoStraddle. left. intros v Hv. apply Qleb_true. specialize (W v Hv). lra.
  - apply NoStraddle. right. intros v Hv. apply Qleb_false. exact (W v Hv).
Qed.

(* ---------------- triangles and rectangles ---------------- *)
Lemma inside_triangle o a b c : off_lines o (sides3 a b c) -> exact_rows o (sides3 a b c) ->
  is_inside (sides3 a b c) o = true <-> inside_tri o a b c.
Proof.
  intros H1 H2. rewrite is_inside_eq by (cbn; lia). rewrite not_touched by assumption. cbn [orb].
  apply tri_parity. exact H1.
Qed.

Definition rect_points (ll ur : vec2) : list vec2 :=
  [ll; V2 (vx ur) (vy ll); ur; V2 (vx ll) (vy ur)].

Lemma inside_rectangle o ll ur : vx ll < vx ur -> vy ll < vy ur ->
  (vx ll < vx o /\ vx o < vx ur /\ vy ll < vy o /\ vy o < vy ur) ->
  is_inside (ring_edges (rect_points ll ur)) o = true.
Proof.
  intros Hx Hy (H1 & H2 & H3 & H4). rewrite is_inside_eq by (cbn; lia).
  assert (P : parity o (ring_edges (rect_points ll ur)) = true).
  { unfold rect_points. cbn [ring_edges app path_edges parity fold_right fst snd].
    rewrite !crosses_eq. unfold up. cbn [vx vy].
    rewrite (proj2 (Qleb_true (vy o) (vy ur))) by lra. rewrite (proj2 (Qleb_false (vy o) (vy ll))) by lra.
    cbn [xorb].
    rewrite (proj2 (Qltb_false _ _)) by (unfold det; cbn [vx vy]; nra).
    rewrite (proj2 (Qltb_true _ _)) by (unfold det; cbn [vx vy]; nra). reflexivity. }
  rewrite P. apply orb_true_r.
Qed.
Lemma outside_rectangle o ll ur : vx ll < vx ur -> vy ll < vy ur -> exact_rows o (ring_edges (rect_points ll ur)) ->
  (vx o < vx ll \/ vx ur < vx o \/ vy o < vy ll \/ vy ur < vy o) ->
  is_inside (ring_edges (rect_points ll ur)) o = false.
Proof.
  intros Hx Hy Hr H. apply outside_box; [exact Hr| |].
  { intros e He [E1 E2]. destruct He as [<-|[<-|[<-|[<-|[]]]]]; cbn in E1, E2; lra. }
  destruct H as [H|[H|[H|H]]]; [left|right; left|right; right; left|right; right; right];
    intros v [<-|[<-|[<-|[<-|[]]]]]; cbn [vx vy]; lra.
Qed.

(* ---------------- points on the boundary ---------------- *)
Lemma EQd_ext a b : a == b -> EQd a b = true.
Proof.
  intros H. unfold EQd, EQtol. rewrite (proj2 (Qleb_true _ _)); [reflexivity|].
  destruct (ABSq_spec (a - b)) as (H1 & _ & _). rewrite H1 by lra. rewrite H. unfold dbl_min, Qle. cbn. lia.
Qed.
Lemma in_on_segment_ext p q r r' : veq r r' -> in_on_segment p q r' = true -> in_on_segment p q r = true.
Proof.
  intros [H1 H2]. rewrite !in_on_segment_iff. unfold det, vdot, vsub. cbn [vx vy]. rewrite H1, H2. tauto.
Qed.
Lemma on_edge_inside es o e : (3 <= length es)%nat -> In e es ->
  veq o (fst e) \/ veq o (snd e) \/ (exists t, 0 <= t /\ t <= 1 /\ vy (fst e) == vy (snd e) /\ veq o (on_seg (fst e) (snd e) t)) ->
  is_inside es o = true.
Proof.
  intros H3 He H. rewrite is_inside_eq by exact H3. apply orb_true_iff. left. unfold touched.
  apply existsb_exists. exists e. split; [exact He|]. unfold touches. rewrite !orb_true_iff, !veqb_true.
  destruct H as [H|[H|(t & T0 & T1 & Hy & H)]]; [tauto|tauto|]. right.
  assert (E : vy o == vy (fst e)). { destruct H as [_ H]. rewrite H. unfold on_seg. cbn [vy]. rewrite Hy. ring. }
  rewrite (EQd_ext (vy o) (vy (snd e))) by (rewrite E; exact Hy). rewrite (EQd_ext (vy o) (vy (fst e))) by exact E.
  cbn [andb]. apply (in_on_segment_ext _ _ _ _ H). apply in_on_segment_complete; assumption.
Qed.
