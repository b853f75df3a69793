(* The boundaries a mesh block describes. *)
From Verif Require Import Base Chain GeomSpec CsvModel ParaModel UtilModel BdryModel BdrySpec BdryProofs WindSpec WindInside PolySpec PolyProps ClearSpec ShapeModel DomInModel.
From Verif Require Import AppModel.
Open Scope Q_scope.

(* the values of a row of a parameter *)
Definition row_is (p : para Q) (j : nat) (vs : list Q) : Prop := forall i v, nth_error vs i = Some v -> get_value p i j = Some v.
(* a number written for a colour or a number of corners: what is behind the point does not count *)
Definition int_of (q : Q) (z : Z) : Prop :=
  (0 <= q -> inject_Z z <= q < inject_Z z + 1) /\ (q < 0 -> inject_Z z - 1 < q <= inject_Z z) /\ (-2147483648 <= z <= 2147483647)%Z.

(* one corner: its place, size and range, and the colour of the side behind it *)
Definition corner_data : Type := vec2 * (Q * Q) * Z.
Definition places (cs : list corner_data) : list vec2 := map (fun c => fst (fst c)) cs.
Definition sizes (cs : list corner_data) : list (Q * Q) := map (fun c => snd (fst c)) cs.
Definition colours (cs : list corner_data) : list Z := map snd cs.
Definition alike (s r : Q) (m : Z) (l : list vec2) : list corner_data := map (fun p => (p, (s, r), m)) l.

Section Describe.
Variables cosn sinn : nat -> nat -> Q.
Variable sqrt3 : Q.
Variable stod : text -> option Q.

(* the corners that a definition stands for *)
Inductive describes : definition -> list corner_data -> Prop :=
  | ds_coords p cs : length cs = pr_nrow p ->
      (forall j x y s r m, nth_error cs j = Some (V2 x y, (s, r), m) -> exists c, row_is p j [x; y; c; s; r] /\ int_of c m /\ (0 <= m)%Z) ->
      describes (DCoords p) cs
  | ds_rect p c m x y w h s r : row_is p 0 [c; x; y; w; h; s; r] -> int_of c m ->
      describes (DRect p) (alike s r m [V2 (x - (1 # 2) * w) (y - (1 # 2) * h); V2 (x + (1 # 2) * w) (y - (1 # 2) * h);
                                        V2 (x + (1 # 2) * w) (y + (1 # 2) * h); V2 (x - (1 # 2) * w) (y + (1 # 2) * h)])
  | ds_circ p c m x y rad k n s r : row_is p 0 [c; x; y; rad; k; s; r] -> int_of c m -> int_of k (Z.of_nat n) -> (3 <= n)%nat ->
      describes (DCirc p) (alike s r m (map (fun i => V2 (x + rad * cosn n i) (y + rad * sinn n i)) (seq 0 n)))
  | ds_square p c m x y w s r : row_is p 0 [c; x; y; w; s; r] -> int_of c m ->
      describes (DSquare p) (alike s r m [V2 (x - (1 # 2) * w) (y - (1 # 2) * w); V2 (x + (1 # 2) * w) (y - (1 # 2) * w);
                                          V2 (x + (1 # 2) * w) (y + (1 # 2) * w); V2 (x - (1 # 2) * w) (y + (1 # 2) * w)])
  | ds_triangle p c m x y a s r : row_is p 0 [c; x; y; a; s; r] -> int_of c m ->
      describes (DTriangle p) (alike s r m (map (fun i => V2 (x + a / sqrt3 * cosn 3%nat i) (y + a / sqrt3 * sinn 3%nat i)) (seq 0 3)))
  | ds_csv file xs ps ms cs : read_csv stod (Some file) = Ok (xs, ps, ms) -> places cs = xs -> sizes cs = map (fun q => (vx q, vy q)) ps -> colours cs = ms ->
      describes (DCsv (Some file)) cs.

(* the same with the vertices of the file: a list of edges goes around once through
   vertices that exist, in the direction that the kind of the boundary asks for *)
Inductive gives (store : list vinfo) (bt : bdry_type) : definition -> list corner_data -> Prop :=
  | gv_shape d cs : describes d cs -> gives store bt d cs
  | gv_edges p vs cs : pr_nrow p = length vs -> length cs = length vs ->
      (forall j v w c, nth_error (ring_edges vs) j = Some (v, w) -> nth_error cs j = Some c ->
         get_value p 0 j = Some (Z.of_nat v) /\ get_value p 1 j = Some (Z.of_nat w) /\ get_value p 2 j = Some (snd c)) ->
      (forall j v c, nth_error vs j = Some v -> nth_error cs j = Some c -> (Z.of_nat v < 2147483648)%Z /\ exists x, nth_error store v = Some x /\ vi_xy x = fst (fst c)) ->
      match bt with EXTERIOR => 0 < signed_area (places cs) | INTERIOR => signed_area (places cs) < 0 end ->
      gives store bt (DEdges p) cs.
End Describe.

(* polygons that bound a domain: the first one outside, the others as holes in it *)
Record nested (outer : list vec2) (holes : list (list vec2)) : Prop := {
  ne_outer : simple_polygon outer;
  ne_holes : forall l, In l holes -> simple_polygon l;
  ne_apart : ForallOrdPairs (fun l m => separate (ring_edges l) (ring_edges m)) (outer :: holes);
  ne_within : forall l, In l holes -> exists p, In p l /\ ~ winding p (ring_edges outer) == 0;
  ne_beside : ForallOrdPairs (fun l m => (exists p, In p l /\ winding p (ring_edges m) == 0) /\ (exists p, In p m /\ winding p (ring_edges l) == 0)) holes
}.

(* the domain that was built, with the coordinates of its vertices *)
Definition domain_of (store : list vinfo) (bds : list (bdry_type * elist)) : list boundary :=
  map (fun b => Bd (fst b) (created store (snd b)) (el_area (snd b))) bds.
