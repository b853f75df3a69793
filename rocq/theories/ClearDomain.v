(* Domains whose boundaries are simple polygons without common points, the interior
   ones side by side inside of the exterior one: proofs for ClearProps. *)
From Coq Require Import Lqa Lia Permutation.
From Verif Require Import Base Chain GeomModel GeomSpec GeomProofs BdryModel BdrySpec FrontSpec WindSpec WindProofs WindInsideProps
  PolyCorner PolySpec PolyProofs PolyMain PolyProps ClearSpec ClearGeom ClearNest ClearStart.
Open Scope Q_scope.

(* some corner of b is not enclosed by c *)
Definition not_inside (b c : boundary) : Prop := exists e, In e (bd_edges b) /\ winding (fst e) (bd_edges c) == 0.
Definition inside_of (b c : boundary) : Prop := exists e, In e (bd_edges b) /\ ~ winding (fst e) (bd_edges c) == 0.
Record proper_domain (bs : list boundary) : Prop := {
  pd_exterior : one_exterior bs;
  pd_simple : forall b, In b bs -> simple_boundary b;
  pd_separate : ForallOrdPairs (fun b c => separate (bd_edges b) (bd_edges c)) bs;
  pd_inside : forall b c, In b bs -> In c bs -> bd_type b = INTERIOR -> bd_type c = EXTERIOR -> inside_of b c;
  pd_beside : ForallOrdPairs (fun b c => bd_type b = INTERIOR -> bd_type c = INTERIOR -> not_inside b c /\ not_inside c b) bs
}.

Lemma fop_perm {A} (R : A -> A -> Prop) l m : (forall x y, R x y -> R y x) -> Permutation l m -> ForallOrdPairs R l -> ForallOrdPairs R m.
Proof.
  intros SYM. induction 1 as [|x l m P IH|x y l|l m k P1 IH1 P2 IH2]; intros F.
  - constructor.
  - inversion F as [|? ? F1 F2]; subst. constructor; [rewrite <- P; exact F1|apply IH, F2].
  - inversion F as [|? ? F1 F2]; subst. inversion F2 as [|? ? F3 F4]; subst. inversion F1 as [|? ? F5 F6]; subst.
    constructor; [constructor; [apply SYM; exact F5|exact F3]|]. constructor; assumption.
  - apply IH2, IH1, F.
Qed.
Lemma proper_edges l e : simple_polygon l -> In e (ring_edges l) -> ~ veq (fst e) (snd e).
Proof.
  intros S I. destruct e as [u v]. destruct (side_first u v l (proj1 S) I) as (l1 & l2 & x & r & E & E2).
  assert (S' : simple_polygon (u :: v :: x :: r)) by (rewrite <- E2; apply simple_turn; rewrite <- E; exact S).
  cbn [fst snd]. apply (u_other u v x r S'). left. reflexivity.
Qed.
Lemma fop_map_in {A B} (R : B -> B -> Prop) (f : A -> list B) l : (forall x, In x l -> ForallOrdPairs R (f x)) ->
  ForallOrdPairs (fun x y => forall a b, In a (f x) -> In b (f y) -> R a b) l -> ForallOrdPairs R (flat_map f l).
Proof.
  intros H F. induction F as [|x l F1 F2 IH]; [constructor|]. cbn [flat_map]. apply pairs_app. split; [apply H; left; reflexivity|].
  split; [apply IH; intros y I; apply H; right; exact I|]. intros a b I J. apply in_flat_map in J. destruct J as (y & Iy & J).
  rewrite Forall_forall in F1. apply (F1 y Iy); assumption.
Qed.

(* at most one hole around a point, and then the exterior boundary is around it, too *)
Lemma holes_alone e hs z : simple_boundary e -> bd_type e = EXTERIOR ->
  (forall b, In b hs -> simple_boundary b /\ bd_type b = INTERIOR /\ separate (bd_edges e) (bd_edges b) /\ inside_of b e) ->
  ForallOrdPairs (fun b c => separate (bd_edges b) (bd_edges c) /\ not_inside b c /\ not_inside c b) hs ->
  (winding z (domain_segments hs) == 0 \/ (winding z (domain_segments hs) == - (1) /\ winding z (bd_edges e) == 1)).
Proof.
  intros SE TE H F. induction F as [|b hs F1 F2 IH]; [left; reflexivity|]. cbn [domain_segments flat_map]. fold (domain_segments hs).
  destruct (H b (or_introl eq_refl)) as (SB & TB & SEP & IN).
  assert (W := simple_boundary_winding b z SB). rewrite TB in W. cbn [turning] in W.
  rewrite winding_app. destruct W as [W|W]; [rewrite W; destruct (IH (fun c I => H c (or_intror I))) as [Z|[Z Z']]; [left|right; split]; lra|].
  right. assert (NZ : ~ winding z (bd_edges b) == 0) by lra. split.
  - assert (Z : winding z (domain_segments hs) == 0); [|rewrite Z, W; lra].
    clear IH F2. induction hs as [|c hs IH]; [reflexivity|]. cbn [domain_segments flat_map]. fold (domain_segments hs). rewrite winding_app.
    inversion F1 as [|? ? (S & (x & Ix & Nx) & (y & Iy & Ny)) F1']; subst.
    assert (Z : winding z (domain_segments hs) == 0) by (apply IH; try assumption; intros d [<-|Id]; apply H; [left; reflexivity|right; right; exact Id]). rewrite Z.
    destruct (H c ltac:(right; left; reflexivity)) as ((m & Em & Sm & _) & _).
    destruct SB as (l & El & Sl & _). rewrite El in *. rewrite Em in *.
    rewrite (both_outside l m x y z S Ix Nx Iy Ny NZ). ring.
  - destruct IN as (x & Ix & Nx). assert (WE := simple_boundary_winding e (fst x) SE). rewrite TE in WE. cbn [turning] in WE.
    destruct SB as (l & El & Sl & _). destruct SE as (m & Em & Sm & _). rewrite El, Em in *.
    rewrite (inner_inside m l x z SEP Ix Nx NZ). destruct WE as [WE|WE]; [contradiction|exact WE].
Qed.

Lemma proper_winding bs z : proper_domain bs -> winding z (domain_segments bs) == 0 \/ winding z (domain_segments bs) == 1.
Proof.
  intros [(l1 & e & l2 & -> & T & N) S SEP IN BE].
  assert (P : Permutation (l1 ++ e :: l2) (e :: l1 ++ l2)) by (apply Permutation_sym, Permutation_middle).
  rewrite (segments_perm _ _ z P). cbn [domain_segments flat_map]. fold (domain_segments (l1 ++ l2)). rewrite winding_app.
  assert (F1 : ForallOrdPairs (fun b c => separate (bd_edges b) (bd_edges c)) (e :: l1 ++ l2)).
  { apply (fop_perm _ _ _ (fun x y H => separate_sym _ _ H) P SEP). }
  assert (F2 : ForallOrdPairs (fun b c => bd_type b = INTERIOR -> bd_type c = INTERIOR -> not_inside b c /\ not_inside c b) (e :: l1 ++ l2)).
  { refine (fop_perm _ _ _ _ P BE). intros x y H A B. destruct (H B A). split; assumption. }
  inversion F1 as [|? ? A1 B1]; subst. inversion F2 as [|? ? A2 B2]; subst. rewrite Forall_forall in A1.
  assert (SE : simple_boundary e) by (apply S, in_or_app; right; left; reflexivity).
  assert (IO : forall b, In b (l1 ++ l2) -> In b (l1 ++ e :: l2)) by (intros b I; apply (Permutation_in _ (Permutation_sym P)); right; exact I).
  assert (WE := simple_boundary_winding e z SE). rewrite T in WE. cbn [turning] in WE.
  destruct (holes_alone e (l1 ++ l2) z SE T) as [Z|[Z Z']].
  - intros b I. split; [apply S, IO, I|]. split; [apply N, I|]. split; [apply A1, I|].
    apply IN; [apply IO, I|apply in_or_app; right; left; reflexivity|apply N, I|exact T].
  - clear - B1 B2 N. induction (l1 ++ l2) as [|b hs IH]; [constructor|]. inversion B1 as [|? ? X1 Y1]; subst. inversion B2 as [|? ? X2 Y2]; subst.
    constructor; [|apply IH; try assumption; intros c I; apply N; right; exact I].
    rewrite Forall_forall in *. intros c I. split; [apply X1, I|]. apply X2; [exact I|apply N; left; reflexivity|apply N; right; exact I].
  - rewrite Z. destruct WE as [WE|WE]; [left|right]; lra.
  - left. lra.
Qed.

Lemma domain_curves bs : proper_domain bs -> simple_curves (domain_segments bs).
Proof.
  intros PD. destruct PD as [X S SEP IN BE] eqn:Q. constructor.
  - intros e I. apply in_flat_map in I. destruct I as (b & Ib & I). destruct (S b Ib) as (l & E & SP & _). rewrite E in I. apply (proper_edges l); assumption.
  - apply fop_map_in.
    + intros b Ib. destruct (S b Ib) as (l & E & (L & D & M) & _). rewrite E. apply fop_intro; [apply ring_nodup; exact D|].
      intros e f I J N s t. apply (M e f s t I J N).
    + clear - SEP. induction SEP as [|b bs F1 F2 IH]; constructor; [|exact IH]. rewrite Forall_forall in *. intros c Ic e f I J s t Hs Ht E.
      exfalso. apply (F1 c Ic e f s t I J Hs Ht E).
  - apply PolyProps.closed_balanced, domain_balanced. exact S.
  - intros z. destruct (proper_winding bs z PD); lra.
Qed.
(* every edge ends at a point of its own *)
Lemma path_snd {A} (l : list A) : forall a, map snd (path_edges a l) = l.
Proof. induction l as [|b l IH]; intros a; [reflexivity|]. cbn [path_edges map snd]. rewrite IH. reflexivity. Qed.
Lemma fop_unmap {A B} (R : B -> B -> Prop) (f : A -> B) l : ForallOrdPairs R (map f l) -> ForallOrdPairs (fun x y => R (f x) (f y)) l.
Proof.
  induction l as [|a l IH]; intros H; [constructor|]. inversion H as [|? ? A1 A2]; subst. constructor; [|apply IH, A2].
  rewrite Forall_forall in *. intros x I. apply A1, in_map, I.
Qed.
Lemma domain_ends bs : proper_domain bs -> ForallOrdPairs (fun w w' : vec2 * vec2 => ~ veq (snd w) (snd w')) (domain_segments bs).
Proof.
  intros PD. destruct PD as [X S SEP IN BE]. apply fop_map_in.
  - intros b Ib. destruct (S b Ib) as (l & E & (L & D & M) & _). rewrite E. apply (fop_unmap (fun a b => ~ veq a b) snd).
    destruct l as [|a l]; [constructor|]. cbn [ring_edges]. rewrite path_snd. refine (fop_perm _ (a :: l) _ _ _ D).
    + intros x y N Q. apply N. destruct Q. split; symmetry; assumption.
    + apply Permutation_cons_append.
  - clear - SEP. induction SEP as [|b bs F1 F2 IH]; constructor; [|exact IH]. rewrite Forall_forall in *. intros c Ic e f I J Q.
    apply (F1 c Ic e f 1 1 I J); try lra. destruct Q as [Q1 Q2]. unfold veq, on_seg. cbn [vx vy]. rewrite Q1, Q2. split; ring.
Qed.
