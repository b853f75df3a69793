(* What an OpenFOAM mesh has to be, independent of the way it is built. *)
From Coq Require Import Permutation Sorted.
From Verif Require Import Base Chain GeomModel FoamModel.
Open Scope Z_scope.

(* numpy.argsort: a permutation of the indices that puts the keys in ascending order *)
Definition sorting (argsort : list Z -> list nat) : Prop := forall keys,
  Permutation (argsort keys) (seq 0 (length keys)) /\
  Sorted Z.le (map (fun i => nth i keys 0) (argsort keys)).

(* the faces of the cell with number c, seen from outside: its own faces, and those it
   is the neighbour of, in reverse *)
Fixpoint outward (c : Z) (faces : list (list Z)) (owner nbr : list Z) : list (list Z) :=
  match faces, owner with
  | f :: fs, o :: os =>
    (if Z.eqb o c then [f] else []) ++
    match nbr with
    | n :: ns => (if Z.eqb n c then [rev f] else []) ++ outward c fs os ns
    | [] => outward c fs os []
    end
  | _, _ => []
  end.
Definition cell (c : Z) (fo : foam) : list (list Z) := outward c (fo_faces fo) (fo_owner fo) (fo_nbr fo).

(* a closed surface: every directed edge of its faces occurs as often as the reverse *)
Definition arcs (fs : list (list Z)) : list (Z * Z) := flat_map (@ring_edges Z) fs.
Definition pair_eq (x y : Z * Z) : bool := Z.eqb (fst x) (fst y) && Z.eqb (snd x) (snd y).
Definition times (x : Z * Z) (l : list (Z * Z)) : nat := length (filter (pair_eq x) l).
Definition closed_surface (fs : list (list Z)) : Prop := forall a b, times (a, b) (arcs fs) = times (b, a) (arcs fs).

(* volume of the solid with these faces, cut into tetrahedra with the origin *)
Definition at_index {A} (d : A) (l : list A) (i : Z) : A := nth (Z.to_nat i) l d.
Definition triple (a b c : Q * Q * Q) : Q :=
  let '(ax, ay, az) := a in let '(bx, by_, bz) := b in let '(cx, cy, cz) := c in
  (ax * (by_ * cz - bz * cy) - ay * (bx * cz - bz * cx) + az * (bx * cy - by_ * cx))%Q.
Fixpoint fan (p : Z -> Q * Q * Q) (a : Z) (l : list Z) : Q :=
  match l with
  | b :: ((c :: _) as r) => (triple (p a) (p b) (p c) + fan p a r)%Q
  | _ => 0%Q
  end.
Definition face_volume (p : Z -> Q * Q * Q) (f : list Z) : Q := match f with a :: r => ((1 # 6) * fan p a r)%Q | [] => 0%Q end.
Definition volume (p : Z -> Q * Q * Q) (fs : list (list Z)) : Q := sumQ (map (face_volume p) fs).
(* area of a polygon *)
Definition plane_area (p : Z -> Q * Q) (l : list Z) : Q :=
  ((1 # 2) * esum (fun a b => fst (p a) * snd (p b) - snd (p a) * fst (p b)) (ring_edges l))%Q.

(* ---- the plane mesh ---- *)
(* the sides of element c according to the lists of edges: an interior edge has its
   element on the left and its element on the right, a boundary edge one on the left *)
Definition sides_of (c : Z) (t : tqm) : list (Z * Z) :=
  flat_map (fun x => (if Z.eqb (fst (snd x)) c then [fst x] else []) ++
                     (if Z.eqb (snd (snd x)) c then [(snd (fst x), fst (fst x))] else [])) (combine (tq_intr t) (tq_intr_el t)) ++
  flat_map (fun x => if Z.eqb (snd x) c then [fst x] else []) (combine (tq_bdry t) (tq_bdry_el t)).
(* these are the sides of its polygon, element 0 being the first quad *)
Record plane_mesh (t : tqm) : Prop := {
  pm_intr : length (tq_intr t) = length (tq_intr_el t);
  pm_bdry : length (tq_bdry t) = length (tq_bdry_el t);
  pm_mark : length (tq_bdry t) = length (tq_mark t);
  pm_verts : tq_verts t <> []; pm_edges : tq_bdry t <> [];
  pm_quads : forall q, In q (tq_quads t) -> length q = 4%nat;
  pm_tris : forall q, In q (tq_tris t) -> length q = 3%nat;
  pm_distinct : forall l r, In (l, r) (tq_intr_el t) -> l <> r;
  pm_intr_cells : forall l r, In (l, r) (tq_intr_el t) -> 0 <= l < Z.of_nat (length (tq_quads t ++ tq_tris t)) /\ 0 <= r < Z.of_nat (length (tq_quads t ++ tq_tris t));
  pm_bdry_cells : forall l, In l (tq_bdry_el t) -> 0 <= l < Z.of_nat (length (tq_quads t ++ tq_tris t));
  pm_range : forall l c, In l (tq_quads t ++ tq_tris t) -> In c l -> 0 <= c < Z.of_nat (length (tq_verts t));
  pm_sides : forall i l, nth_error (tq_quads t ++ tq_tris t) i = Some l -> Permutation (ring_edges l) (sides_of (Z.of_nat i) t)
}.

(* the patches follow each other without gaps from [lo] to [hi] *)
Fixpoint in_line (lo : Z) (ps : list (Z * Z)) (hi : Z) : Prop :=
  match ps with [] => lo = hi | (s, n) :: r => s = lo /\ 0 <= n /\ in_line (lo + n) r hi end.
(* the order of interior faces OpenFOAM asks for *)
Definition upper_order (fo : foam) : Prop := forall i j a b c d, (i < j)%nat ->
  nth_error (fo_owner fo) i = Some a -> nth_error (fo_nbr fo) i = Some b ->
  nth_error (fo_owner fo) j = Some c -> nth_error (fo_nbr fo) j = Some d -> a < c \/ (a = c /\ b < d).
