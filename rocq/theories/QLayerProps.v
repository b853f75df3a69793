(* Property C37: quad layers cover the requested part of the boundary. *)
From Coq Require Import Lia Lqa Qabs.
From Verif Require Import Base GeomModel FacetModel UtilModel BdryModel BdrySpec AdvanceModel AdvanceSpec AdvanceProofs LoopModel
  QLayerModel QLayerSpec QLayerProofs.
Open Scope Q_scope.

(* ---- the base edges ---- *)
(* The edges of a layer: the route over the front from an edge at a closest
   vertex of the start to an edge at a closest vertex of the end.  If both are the same vertex it
   is a route around a loop through that vertex.  What is missing (C37_refuted):
   a single edge between both vertices, [e = f]. *)
Theorem C37_base_edges_partial sharp st xs xe e f closed :
  NoDup (map be_id (ms_front st)) -> (forall g, In g (ms_front st) -> be_v1 g <> be_v2 g) ->
  find_ends sharp st xs xe = Ok (Some (e, f, closed)) -> e <> f ->
  exists vs ve l, closest_of (ms_pos st) (ms_front st) xs vs /\ closest_of (ms_pos st) (ms_front st) xe ve /\
    base_edges (Nat.max 1 (length (ms_front st))) (ms_front st) e f = Ok l /\ route (ms_front st) e f l /\
    (closed = true <-> vs = ve) /\
    (closed = false -> be_v1 e = vs /\ be_v2 f = ve) /\
    (closed = true -> be_v2 f = be_v1 e /\ exists g, In g l /\ be_v1 g = vs).
Proof.
  intros N D H NE. destruct (find_ends_spec _ _ _ _ _ _ _ N D H) as (vs & ve & A & B & He & Hf & C & O & K & l & L & X).
  exists vs, ve, l. split; [exact A|]. split; [exact B|]. split; [exact L|]. split; [exact (base_route _ _ _ _ _ N Hf He NE L)|].
  split; [exact C|]. split; [exact O|]. intros Y. split; [apply (K Y)|exact (X Y)].
Qed.

(* without branching vertices there is no other route *)
Theorem C37_only_route sharp st xs xe e f closed l l' :
  NoDup (map be_id (ms_front st)) -> (forall g, In g (ms_front st) -> be_v1 g <> be_v2 g) -> simple (ms_front st) ->
  find_ends sharp st xs xe = Ok (Some (e, f, closed)) -> e <> f ->
  base_edges (Nat.max 1 (length (ms_front st))) (ms_front st) e f = Ok l -> route (ms_front st) e f l' -> l' = l.
Proof. intros N D [S1 _] H NE L R. exact (route_unique _ _ _ _ _ _ N S1 NE R L). Qed.

(* a layer is started whenever the route exists *)
Theorem C37_found sharp st xs xe vs ve e f l :
  NoDup (map be_id (ms_front st)) -> simple (ms_front st) ->
  closest_vertex (ms_pos st) (ms_front st) xs = Some vs -> closest_vertex (ms_pos st) (ms_front st) xe = Some ve -> vs <> ve ->
  route (ms_front st) e f l -> be_v1 e = vs -> be_v2 f = ve -> e <> f ->
  find_ends sharp st xs xe = Ok (Some (e, f, false)).
Proof.
  intros N [S1 S2] A B D R E F NE. unfold find_ends. rewrite A, B. pose proof R as ((r1 & R1) & (r2 & R2) & I & L & ND).
  assert (He : In e (ms_front st)) by (apply I; rewrite R1; left; reflexivity).
  assert (Hf : In f (ms_front st)) by (apply I; rewrite R2; apply in_or_app; right; left; reflexivity).
  assert (X : edge_from (ms_front st) vs = Some e).
  { unfold edge_from. destruct (oldest (filter (fun g => Nat.eqb (be_v1 g) vs) (ms_front st))) as [g|] eqn:O.
    - apply oldest_in, filter_In in O. destruct O as [O1 O2]. apply Nat.eqb_eq in O2. f_equal.
      clear -S1 He O1 O2 E. assert (Y : be_v1 g = be_v1 e) by congruence. clear E O2. induction (ms_front st) as [|a q IH]; [destruct He|].
      cbn [map] in S1. inversion S1 as [|? ? S3 S4]; subst. destruct He as [->|He], O1 as [->|O1]; auto; exfalso; apply S3.
      + rewrite <- Y. apply in_map. exact O1.
      + rewrite Y. apply in_map. exact He.
    - exfalso. apply oldest_none in O. assert (Z : In e (filter (fun g => Nat.eqb (be_v1 g) vs) (ms_front st))) by (apply filter_In; split; [exact He|apply Nat.eqb_eq; exact E]).
      rewrite O in Z. destruct Z. }
  assert (Y : edge_to (ms_front st) ve = Some f).
  { unfold edge_to. destruct (oldest (filter (fun g => Nat.eqb (be_v2 g) ve) (ms_front st))) as [g|] eqn:O.
    - apply oldest_in, filter_In in O. destruct O as [O1 O2]. apply Nat.eqb_eq in O2. f_equal.
      clear -S2 Hf O1 O2 F. assert (Y : be_v2 g = be_v2 f) by congruence. clear F O2. induction (ms_front st) as [|a q IH]; [destruct Hf|].
      cbn [map] in S2. inversion S2 as [|? ? S3 S4]; subst. destruct Hf as [->|Hf], O1 as [->|O1]; auto; exfalso; apply S3.
      + rewrite <- Y. apply in_map. exact O1.
      + rewrite Y. apply in_map. exact Hf.
    - exfalso. apply oldest_none in O. assert (Z : In f (filter (fun g => Nat.eqb (be_v2 g) ve) (ms_front st))) by (apply filter_In; split; [exact Hf|apply Nat.eqb_eq; exact F]).
      rewrite O in Z. destruct Z. }
  rewrite X, Y. assert (T : is_traversable (ms_front st) e f = true).
  { unfold is_traversable. assert (P := route_base _ f N S1 l e (ex_intro _ r1 R1) (ex_intro _ r2 R2) I L ND NE).
    exact (base_reaches _ _ _ _ _ (base_fuel _ _ _ _ _ N Hf He NE P)). }
  rewrite T. cbn [negb]. destruct (Nat.eqb_spec vs ve); [contradiction|reflexivity].
Qed.

(* ---- the heights ---- *)
Theorem C37_heights norm rho pos height bs :
  0 < height -> (forall x, 0 < rho x) -> (forall e, In e bs -> 0 < elen norm pos e) ->
  let cs := smooth_heights rho pos (map (new_cell norm pos height) bs) in
  map lc_e cs = bs /\ forall c, In c cs -> 0 < lc_h c <= height.
Proof.
  intros H R L cs. split.
  - unfold cs. rewrite smooth_edges, map_map. apply map_id.
  - apply smooth_bounds; [exact R|]. intros c Hc. apply in_map_iff in Hc. destruct Hc as (e & <- & He). cbn [new_cell lc_h].
    split; [apply qminb_pos; [exact H|apply L; exact He]|apply qminb_le].
Qed.
(* before two base edges are adjusted, projected vertices are at the height of
   the base edge *)
Theorem C37_projection norm pos height e :
  is_norm norm (vsub (pos (be_v2 e)) (pos (be_v1 e))) -> 0 < elen norm pos e ->
  let c := new_cell norm pos height e in
  height_over norm (pos (be_v1 e)) (pos (be_v2 e)) (lc_p1 c) == lc_h c /\
  height_over norm (pos (be_v1 e)) (pos (be_v2 e)) (lc_p2 c) == lc_h c.
Proof. intros N P. apply new_cell_height; assumption. Qed.
(* the point projected from the vertex between two base edges has the mean of
   their heights over both of them *)
Theorem C37_mitre norm sin_half sharp pos c d x p q r :
  p = pos (be_v1 (lc_e c)) -> q = pos (be_v1 (lc_e d)) -> r = pos (be_v2 (lc_e d)) -> be_v2 (lc_e c) = be_v1 (lc_e d) ->
  is_norm norm (vsub q p) -> is_norm norm (vsub p q) -> is_norm norm (vsub r q) -> 0 < norm (vsub q p) -> 0 < norm (vsub r q) ->
  (forall n, n = vscale (1 # 2) (vadd (enormal norm pos (lc_e c)) (enormal norm pos (lc_e d))) -> is_norm norm n /\ 0 < norm n) ->
  is_sin_half norm sin_half (vsub p q) (vsub r q) ->
  adjusted norm sin_half sharp pos c d = Some x ->
  height_over norm p q x == (1 # 2) * (lc_h c + lc_h d) /\ height_over norm q r x == (1 # 2) * (lc_h c + lc_h d).
Proof. apply adjusted_height. Qed.

(* ---- the layers ---- *)
(* the requested heights are height, height * rate, height * rate^2, ...; all
   [n] layers are started unless one fails, and then it is the last one *)
Theorem C37_growth norm sin_half cos_ang sharp rho mesh_scale tri_ok vtx_ok qual query n st height rate xs xe st' done hs :
  layers norm sin_half cos_ang sharp rho mesh_scale tri_ok vtx_ok qual query n st height rate xs xe = Ok (st', done, hs) ->
  (forall i h, nth_error hs i = Some h -> h == height * qpow rate i) /\ (length hs <= n)%nat /\
  (done = true -> length hs = n) /\ (done = false -> hs <> []).
Proof.
  revert st height xs xe st' done hs. induction n as [|n IH]; intros st height xs xe st' done hs H; cbn [layers] in H.
  - injection H as <- <- <-. split; [intros [|i] h X; discriminate|]. split; [cbn; lia|]. split; [reflexivity|discriminate].
  - destruct (generate_layer norm sin_half cos_ang sharp rho mesh_scale tri_ok vtx_ok qual query st height xs xe) as [[s1 o]| |]; cbn [obind snd fst] in H; try discriminate.
    destruct o as [[a b]|].
    + destruct (layers norm sin_half cos_ang sharp rho mesh_scale tri_ok vtx_ok qual query n s1 (height * rate) rate a b) as [[[s2 d] hs2]| |] eqn:E; cbn [obind snd fst] in H; try discriminate.
      injection H as <- <- <-. destruct (IH _ _ _ _ _ _ _ E) as (A & B & C & D). split.
      * intros [|i] h X; cbn in X; [injection X as <-; cbn; ring|]. apply A in X. rewrite X. cbn [qpow]. ring.
      * split; [cbn; lia|]. split; [intros Y; cbn; rewrite (C Y); reflexivity|discriminate].
    + injection H as <- <- <-. split; [intros [|[|i]] h X; try discriminate; cbn in X; injection X as <-; cbn; ring|].
      split; [cbn; lia|]. split; [discriminate|]. intros _ X. discriminate.
Qed.

(* ---- a square front ---- *)
Definition sq_pos (v : nat) : vec2 := match v with O => V2 0 0 | 1%nat => V2 4 0 | 2%nat => V2 4 4 | _ => V2 0 4 end.
Definition sq_front : list bedge := [BE 0 0 1 1 1; BE 1 1 2 1 1; BE 2 2 3 1 1; BE 3 3 0 1 1].
Definition sq_state : mstate := MS sq_pos (fun _ => true) [0%nat; 1%nat; 2%nat; 3%nat] 4 sq_front 4 [] [] 0 [] 0 0.
Definition never (a b : vec2) : bool := false.

(* both vertices are joined by one edge: the layer runs around the whole front and
   has this edge twice; no list of front edges from it to it, each once, does *)
Theorem C37_refuted : exists st xs xe e l vs ve,
  NoDup (map be_id (ms_front st)) /\ simple (ms_front st) /\ (forall g, In g (ms_front st) -> be_v1 g <> be_v2 g) /\
  closest_of (ms_pos st) (ms_front st) xs vs /\ closest_of (ms_pos st) (ms_front st) xe ve /\ be_v1 e = vs /\ be_v2 e = ve /\
  find_ends never st xs xe = Ok (Some (e, e, false)) /\
  base_edges (Nat.max 1 (length (ms_front st))) (ms_front st) e e = Ok l /\
  route (ms_front st) e e [e] /\ l <> [e] /\ ~ NoDup l /\ incl (ms_front st) l.
Proof.
  exists sq_state, (V2 0 0), (V2 4 0), (BE 0 0 1 1 1), [BE 0 0 1 1 1; BE 1 1 2 1 1; BE 2 2 3 1 1; BE 3 3 0 1 1; BE 0 0 1 1 1], 0%nat, 1%nat.
  split; [repeat constructor; cbn; intuition discriminate|]. split; [split; repeat constructor; cbn; intuition discriminate|].
  split; [intros g Hg; cbn in Hg; repeat destruct Hg as [Hg|Hg]; try contradiction; subst; discriminate|].
  split; [apply closest_spec; reflexivity|]. split; [apply closest_spec; reflexivity|]. split; [reflexivity|]. split; [reflexivity|].
  split; [reflexivity|]. split; [reflexivity|].
  split; [split; [exists []; reflexivity|]; split; [exists []; reflexivity|]; split; [intros x [<-|[]]; left; reflexivity|]; split; [cbn; auto|]; repeat constructor; intros []|].
  split; [discriminate|]. split; [intros X; inversion X as [|? ? X1 X2]; apply X1; cbn; tauto|].
  intros x Hx. cbn in Hx. cbn. intuition.
Qed.

(* two edges of the square *)
Example C37_example : find_ends never sq_state (V2 0 0) (V2 4 4) = Ok (Some (BE 0 0 1 1 1, BE 1 1 2 1 1, false)) /\
  base_edges 4 sq_front (BE 0 0 1 1 1) (BE 1 1 2 1 1) = Ok [BE 0 0 1 1 1; BE 1 1 2 1 1] /\
  route sq_front (BE 0 0 1 1 1) (BE 1 1 2 1 1) [BE 0 0 1 1 1; BE 1 1 2 1 1] /\
  closest_vertex sq_pos sq_front (V2 0 0) = Some 0%nat /\ closest_vertex sq_pos sq_front (V2 4 4) = Some 2%nat.
Proof.
  split; [reflexivity|]. split; [reflexivity|]. split; [|split; reflexivity].
  split; [exists [BE 1 1 2 1 1]; reflexivity|]. split; [exists [BE 0 0 1 1 1]; reflexivity|]. split; [intros x Hx; cbn in Hx; cbn; intuition|].
  split; [cbn; auto|]. repeat constructor; cbn; intuition discriminate.
Qed.
(* the whole square: starting and ending position are the same *)
Example C37_example_closed : find_ends never sq_state (V2 0 0) (V2 0 0) = Ok (Some (BE 0 0 1 1 1, BE 3 3 0 1 1, true)) /\
  base_edges 4 sq_front (BE 0 0 1 1 1) (BE 3 3 0 1 1) = Ok sq_front.
Proof. split; reflexivity. Qed.

(* two edges of length 25 at an angle with rational sines: the oracles are exact
   for the vectors that occur *)
Definition bend_pos (v : nat) : vec2 := match v with O => V2 (-25) 0 | 1%nat => V2 0 0 | _ => V2 7 24 end.
Definition bend_norm (d : vec2) : Q := if Qeq_bool (vnorm2 d) 625 then 25 else 4 # 5.
Definition bend_sin (a b : vec2) : Q := 4 # 5.
Definition bend_base : list bedge := [BE 0 0 1 1 1; BE 1 1 2 1 1].
Example C37_example_heights : (forall e, In e bend_base -> 0 < elen bend_norm bend_pos e /\
    is_norm bend_norm (vsub (bend_pos (be_v2 e)) (bend_pos (be_v1 e)))) /\
  map lc_h (smooth_heights (fun _ => 1) bend_pos (map (new_cell bend_norm bend_pos 3) (bend_base ++ bend_base))) = [3; 1; 1; 3].
Proof.
  split; [|reflexivity]. intros e He. cbn in He. repeat destruct He as [He|He]; try contradiction; subst; (split; [reflexivity|split; [discriminate|reflexivity]]).
Qed.
Example C37_example_mitre : let c := LC (BE 0 0 1 1 1) 2 (V2 0 0) (V2 0 0) None None in
  let d := LC (BE 1 1 2 1 1) 4 (V2 0 0) (V2 0 0) None None in
  let n := vscale (1 # 2) (vadd (enormal bend_norm bend_pos (lc_e c)) (enormal bend_norm bend_pos (lc_e d))) in
  is_norm bend_norm n /\ 0 < bend_norm n /\ is_sin_half bend_norm bend_sin (V2 (-25) 0) (V2 7 24) /\
  is_norm bend_norm (V2 (-25) 0) /\
  exists x, adjusted bend_norm bend_sin never bend_pos c d = Some x /\
    height_over bend_norm (V2 (-25) 0) (V2 0 0) x == 3 /\ height_over bend_norm (V2 0 0) (V2 7 24) x == 3.
Proof.
  cbv zeta. split; [split; [vm_compute; discriminate|vm_compute; reflexivity]|]. split; [vm_compute; reflexivity|].
  split; [split; [vm_compute; discriminate|vm_compute; reflexivity]|]. split; [split; [vm_compute; discriminate|vm_compute; reflexivity]|].
  eexists. split; [reflexivity|]. split; vm_compute; reflexivity.
Qed.
(* two layers around the square: eight quads, no triangle left *)
Definition box_norm (d : vec2) : Q := Qabs (vx d) + Qabs (vy d).
Definition near (m : mstate) (p : vec2) (r : Q) : list nat :=
  filter (fun v => Qltb (vnorm2 (vsub (ms_pos m v) p)) (1 # 10)) (ms_verts m).
Definition sq_layers : outcome (qstate * bool * list Q) :=
  layers box_norm (fun _ _ => 1) (fun _ _ => 0) never (fun _ => 1) 100 (fun _ _ => true) (fun _ _ => true) (fun _ _ => 0) near
    2 (QS sq_state sq_front (fun _ => false)) (1 # 2) 2 (V2 0 0) (V2 0 0).
Example C37_example_growth : match sq_layers with
  | Ok (st, done, hs) => done = true /\ hs = [1 # 2; 2 # 2] /\ length (ms_quads (q_m st)) = 8%nat /\ ms_tris (q_m st) = [] /\
      map pair_of (ms_front (q_m st)) = [(8, 9); (9, 10); (10, 11); (11, 8)]%nat
  | _ => False
  end.
Proof. vm_compute. repeat split; reflexivity. Qed.

Print Assumptions C37_base_edges_partial.
Print Assumptions C37_only_route.
Print Assumptions C37_found.
Print Assumptions C37_heights.
Print Assumptions C37_projection.
Print Assumptions C37_mitre.
Print Assumptions C37_growth.
Print Assumptions C37_refuted.
