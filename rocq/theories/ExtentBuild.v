(* The boundaries of a domain that is searched in its square: proofs for ExtentProps. *)
From Coq Require Import Lqa Lia.
From Verif Require Import Base GeomModel GeomSpec UtilModel BdryModel AdvanceModel AdvanceSpec AdvanceProofs PolySpec ParaModel CsvModel AppModel ShapeModel ShapeProps
  DomInModel DomInSpec DomInProofs DomInBuild QTreeModel ExtentModel ExtentSpec ExtentProofs.
From Verif Require QTreeCont.
Open Scope Q_scope.

Section Tree.
Variable p : cparams.
Variable sq : Q -> Q.
Hypothesis MI : (0 <= cp_items p)%Z.
Hypothesis SC : 0 < cp_scale p.
Hypothesis SQ : QTreeCont.sqrt_ok sq.

(* an oracle that answers everywhere, as the container does in its square *)
Definition calm (store : list vinfo) (xy : vec2) : outcome (option nat) :=
  match tree_nearest p sq store xy with Ok o => Ok o | _ => Ok None end.
Lemma calm_answers : answers calm.
Proof. intros store xy. unfold calm. destruct (tree_nearest p sq store xy) as [o| |]; eexists; reflexivity. Qed.
Notation inside q := (AdvanceModel.in_square (cp_scale p) q = true).

Lemma apart_snoc store x : apart store -> (forall j w, nth_error store j = Some w -> ~ veq (vi_xy w) (vi_xy x)) -> apart (store ++ [x]).
Proof.
  intros A N i j v w I J V.
  assert (C : forall k u, nth_error (store ++ [x]) k = Some u -> nth_error store k = Some u \/ (k = length store /\ u = x)).
  { intros k u E. destruct (Nat.lt_ge_cases k (length store)) as [L|L]; [left; rewrite nth_error_app1 in E by exact L; exact E|right].
    rewrite nth_error_app2 in E by exact L. destruct (k - length store)%nat as [|m] eqn:M; [cbn in E; injection E as <-; split; [lia|reflexivity]|]. destruct m; discriminate. }
  destruct (C i v I) as [I'|[-> ->]], (C j w J) as [J'|[-> ->]].
  - exact (A i j v w I' J' V).
  - exfalso. exact (N i v I' V).
  - exfalso. apply (N j w J'). destruct V as [V1 V2]. split; symmetry; assumption.
  - reflexivity.
Qed.
Lemma shape_tree shape : forall props store, (forall q, In q shape -> inside q) -> length props = length shape ->
  exists ext vs, shape_vertices (tree_nearest p sq) store shape props = Ok (store ++ ext, vs) /\ shape_vertices calm store shape props = Ok (store ++ ext, vs) /\
    (apart store -> apart (store ++ ext)) /\ (forall v, In v ext -> In (vi_xy v) shape).
Proof.
  induction shape as [|q shape IH]; intros props store IN L; [exists [], []; rewrite app_nil_r; repeat split; try reflexivity; [auto|intros v []]|].
  destruct props as [|[s r] props]; [discriminate|]. cbn [shape_vertices]. unfold calm at 1. destruct (tree_found p sq store q MI SC SQ (IN q (or_introl eq_refl))) as (o & E & _ & F). rewrite E. cbn [obind].
  set (reuse := match o with Some i => match nth_error store i with Some v => if veqb (vi_xy v) q then Some i else None | None => None end | None => None end).
  cbn [length] in L. destruct reuse as [i|] eqn:RU.
  - destruct (IH props store (fun x H => IN x (or_intror H)) ltac:(lia)) as (ext & vs & E1 & E2 & A & P). rewrite E1, E2. exists ext, (i :: vs). cbn [obind fst snd]. split; [reflexivity|]. split; [reflexivity|]. split; [exact A|].
    intros v H. right. exact (P v H).
  - destruct (IH props (store ++ [VI q s r 0%N]) (fun x H => IN x (or_intror H)) ltac:(lia)) as (ext & vs & E1 & E2 & A & P). rewrite E1, E2. exists ([VI q s r 0%N] ++ ext), (length store :: vs). cbn [obind fst snd].
    rewrite !app_assoc. split; [reflexivity|]. split; [reflexivity|]. split.
    + intros AP. apply A, apart_snoc; [exact AP|]. cbn [vi_xy]. intros j w J V. destruct (F (ex_intro _ j (ex_intro _ w (conj J V)))) as (i & v & -> & I & VV). unfold reuse in RU. rewrite I in RU.
      replace (veqb (vi_xy v) q) with true in RU by (symmetry; apply veqb_true; exact VV). discriminate.
    + intros v H. apply in_app_or in H. destruct H as [[<-|[]]|H]; [left; reflexivity|right; exact (P v H)].
Qed.
Lemma create_tree bt store shape props colors : (forall q, In q shape -> inside q) -> length props = length shape -> length colors = length shape ->
  exists ext l, create_boundary_shape (tree_nearest p sq) bt store shape props colors = Ok (store ++ ext, l) /\ create_boundary_shape calm bt store shape props colors = Ok (store ++ ext, l) /\
    (apart store -> apart (store ++ ext)) /\ (forall v, In v ext -> In (vi_xy v) shape).
Proof.
  intros IN L1 L2. destruct (shape_tree shape props store IN L1) as (ext & vs & E1 & E2 & A & P).
  destruct (vertices_any calm shape calm_answers props store L1) as (ext' & vs' & E3 & LV). rewrite E2 in E3. assert (LV' : length vs = length shape) by (injection E3 as _ <-; exact LV).
  destruct (edges_any (is_forward bt (Qltb 0 (polygon_area shape))) vs colors ltac:(lia)) as (es & F).
  unfold create_boundary_shape. rewrite E1, E2. cbn [obind fst snd]. rewrite F. cbn [obind]. exists ext. eexists. split; [reflexivity|]. split; [reflexivity|]. split; assumption.
Qed.

Section Build.
Variables cosn sinn : nat -> nat -> Q.
Variable sqrt3 : Q.
Variable stod : text -> option Q.
Notation add_t := (add (tree_nearest p sq) cosn sinn sqrt3 stod).
Notation add_c := (add calm cosn sinn sqrt3 stod).

Lemma add_tree bt d cs store bds : gives cosn sinn sqrt3 stod store bt d cs -> (forall q, In q (places cs) -> inside q) ->
  exists ext, (forall b, add_c bt d (store, bds) = Ok b -> fst b = store ++ ext) /\ add_t bt d (store, bds) = add_c bt d (store, bds) /\
    (apart store -> apart (store ++ ext)) /\ (forall v, In v ext -> In (vi_xy v) (places cs)).
Proof.
  intros [d' cs' D|q vs cs' N L R V O] IN.
  - destruct (parts_length cs') as [L1 L2]. destruct (create_tree bt store (places cs') (sizes cs') (colours cs') IN L1 L2) as (ext & l & E1 & E2 & A & P).
    exists ext. unfold add. cbn [fst snd]. rewrite !(make_described _ cosn sinn sqrt3 stod bt store d' cs' D), E1, E2. cbn [obind fst snd].
    split; [intros b E; injection E as <-; reflexivity|]. split; [reflexivity|]. split; assumption.
  - exists []. rewrite app_nil_r. split; [|split; [reflexivity|split; [auto|intros v []]]]. intros b. unfold add. cbn [make fst snd].
    destruct (boundary_edges _ _ _ _ _) as [es| |]; cbn [obind]; intros E; try discriminate. injection E as <-. reflexivity.
Qed.
Lemma add_all_tree ds css store0 : Forall2 (gives cosn sinn sqrt3 stod store0 INTERIOR) ds css -> (forall cs, In cs css -> simple_polygon (places cs)) ->
  (forall cs q, In cs css -> In q (places cs) -> inside q) -> forall ext0 bds, let store := store0 ++ ext0 in
  exists ext, add_all (tree_nearest p sq) cosn sinn sqrt3 stod ds (store, bds) = add_all calm cosn sinn sqrt3 stod ds (store, bds) /\
    (forall b, add_all calm cosn sinn sqrt3 stod ds (store, bds) = Ok b -> fst b = store ++ ext) /\
    (apart store -> apart (store ++ ext)) /\ (forall v, In v ext -> exists cs, In cs css /\ In (vi_xy v) (places cs)).
Proof.
  intros F. induction F as [|d cs ds css D F IH]; intros S IN ext0 bds; cbv zeta.
  - exists []. rewrite app_nil_r. split; [reflexivity|]. split; [intros b E; cbn in E; injection E as <-; reflexivity|]. split; [auto|intros v []].
  - assert (D' := gives_later cosn sinn sqrt3 stod _ ext0 _ _ _ D). cbn [add_all].
    destruct (add_described calm cosn sinn sqrt3 stod calm_answers INTERIOR d cs (store0 ++ ext0) bds D' (S cs (or_introl eq_refl))) as (e0 & b & E & _).
    destruct (add_tree INTERIOR d cs (store0 ++ ext0) bds D' (fun q => IN cs q (or_introl eq_refl))) as (e1 & Q & ET & A1 & P1). rewrite ET, E. cbn [obind]. specialize (Q _ E). cbn [fst] in Q. rewrite Q. rewrite <- (app_assoc store0) in *.
    destruct (IH (fun x I => S x (or_intror I)) (fun x q I => IN x q (or_intror I)) (ext0 ++ e1) (bds ++ [(INTERIOR, b)])) as (e2 & E2 & Q2 & A2 & P2).
    exists (e1 ++ e2). split; [exact E2|]. rewrite <- !app_assoc in *. split; [exact Q2|]. split; [intros A; apply A2, A1, A|].
    intros v I. apply in_app_or in I. destruct I as [I|I]; [exists cs; split; [left; reflexivity|exact (P1 v I)]|]. destruct (P2 v I) as (c & C1 & C2). exists c. split; [right; exact C1|exact C2].
Qed.
Lemma boundaries_tree store ext int d0 c0 css : chosen kinds ext = Some d0 -> gives cosn sinn sqrt3 stod store EXTERIOR d0 c0 -> simple_polygon (places c0) ->
  Forall2 (gives cosn sinn sqrt3 stod store INTERIOR) (interior_definitions int) css -> (forall cs, In cs css -> simple_polygon (places cs)) ->
  (forall cs q, In cs (c0 :: css) -> In q (places cs) -> inside q) ->
  init_boundaries (tree_nearest p sq) cosn sinn sqrt3 stod store ext int = init_boundaries calm cosn sinn sqrt3 stod store ext int /\
  forall new bds, init_boundaries calm cosn sinn sqrt3 stod store ext int = Ok (store ++ new, bds) ->
    (apart store -> apart (store ++ new)) /\ (forall v, In v new -> exists cs, In cs (c0 :: css) /\ In (vi_xy v) (places cs)).
Proof.
  intros C D S F SS IN. unfold init_boundaries, init_exterior. rewrite C.
  destruct (add_described calm cosn sinn sqrt3 stod calm_answers EXTERIOR d0 c0 store [] D S) as (e0 & b & E & _).
  destruct (add_tree EXTERIOR d0 c0 store [] D (fun q => IN c0 q (or_introl eq_refl))) as (e1 & Q & ET & A1 & P1). rewrite ET, E. cbn [obind]. specialize (Q _ E). cbn [fst] in Q. rewrite Q.
  destruct (add_all_tree _ css store F SS (fun x q I => IN x q (or_intror I)) e1 ([] ++ [(EXTERIOR, b)])) as (e2 & E2 & Q2 & A2 & P2). split; [exact E2|].
  intros new bds EB. specialize (Q2 _ EB). cbn [fst] in Q2. rewrite <- app_assoc in Q2. apply app_inv_head in Q2. subst new. rewrite app_assoc. split; [intros A; apply A2, A1, A|].
  intros v I. apply in_app_or in I. destruct I as [I|I]; [exists c0; split; [left; reflexivity|exact (P1 v I)]|]. destruct (P2 v I) as (c & C1 & C2). exists c. split; [right; exact C1|exact C2].
Qed.
End Build.
End Tree.
