(* Executable model of scripts/convert2foam.py: reading the text file of a mesh,
   sorting its edges and building the arrays of an OpenFOAM mesh.
   int(), float() and str.split() of Python are the readers of OutSpec.v (signs,
   digits and leading blanks only).  Indices are integers of any size. *)
From Coq Require Import Ascii String Qround.
From Verif Require Import Base OutModel OutSpec.
Open Scope nat_scope.
Open Scope list_scope.

(* ---- reading, 41-202 ---- *)
Definition same_text (a b : text) : bool := if list_eq_dec ascii_dec a b then true else false.
(* line.split(" ")[0] and line.split(" ")[1]; the lines of readlines() keep their
   newline, which int() ignores; Throw: IndexError *)
Definition word0 (l : text) : text := match split_at " "%char l with (w, Some _) => w | (w, None) => w ++ newline end.
Definition word1 (l : text) : outcome text :=
  match snd (split_at " "%char l) with Some r => Ok (fst (split_at " "%char r)) | None => Throw end.
(* Throw: ValueError *)
Definition py_int (t : text) : outcome Z := match read_int (strip t) with Some z => Ok z | None => Throw end.
Definition word1_int (l : text) : outcome Z := obind (word1 l) py_int.
Fixpoint collect {A} (l : list (outcome A)) : outcome (list A) :=
  match l with [] => Ok [] | o :: r => obind o (fun x => obind (collect r) (fun xs => Ok (x :: xs))) end.

(* 52-58 io_clear_comments: line 0 is never looked at.  The lines still end with
   their newline, so that an empty line is not an error. *)
Definition is_comment (l : text) : bool :=
  match filter (fun c => negb (Ascii.eqb c " "%char)) l with c :: _ => Ascii.eqb c "#"%char | [] => false end.
Definition clear_comments (ls : list text) : list text :=
  match ls with [] => [] | l :: r => l :: filter (fun x => negb (is_comment x)) r end.
(* 41-50 io_gather_mesh_ids *)
Definition gather_mesh_ids (ls : list text) : outcome (list Z) :=
  collect (map word1_int (filter (fun l => same_text (word0 l) (chars "MESH")) ls)).

(* the search of 67-77, 94-104, 125-135, 155-165, 183-193: the lines behind the
   header and the number of rows *)
Fixpoint find_section (passed : bool) (id : Z) (name : text) (ls : list text) : outcome (option (list text * Z)) :=
  match ls with
  | [] => Ok None
  | l :: r =>
    obind (if same_text (word0 l) (chars "MESH") then obind (word1_int l) (fun k => Ok (passed || Z.eqb k id)) else Ok passed) (fun p =>
    if p && same_text (word0 l) name then obind (word1_int l) (fun n => Ok (Some (r, n)))
    else find_section p id name r)
  end.
(* the rows; Throw: IndexError *)
Definition section_rows (id : Z) (name : string) (ls : list text) : outcome (list text) :=
  obind (find_section false id (chars name) ls) (fun o =>
    match o with
    | None => Ok []
    | Some (r, n) => if Nat.leb (Z.to_nat n) (List.length r) then Ok (firstn (Z.to_nat n) r) else Throw
    end).
(* ( int(s) for s in line.split(',') ), unpacked into [k] names; Throw: ValueError *)
Definition int_fields (k : nat) (l : text) : outcome (list Z) :=
  obind (collect (map py_int (commas l))) (fun zs => if Nat.eqb (List.length zs) k then Ok zs else Throw).
Definition py_float (t : text) : outcome Q := match read_number (strip t) with Some q => Ok q | None => Throw end.
Definition float_fields (k : nat) (l : text) : outcome (list Q) :=
  obind (collect (map py_float (commas l))) (fun qs => if Nat.eqb (List.length qs) k then Ok qs else Throw).
Definition int_table (id : Z) (name : string) (k : nat) (ls : list text) : outcome (list (list Z)) :=
  obind (section_rows id name ls) (fun rs => collect (map (int_fields k) rs)).

(* the members of class TQMesh, 216-220 *)
Record tqm := TQ {
  tq_verts : list (Q * Q);
  tq_intr : list (Z * Z); tq_intr_el : list (Z * Z);
  tq_bdry : list (Z * Z); tq_bdry_el : list Z; tq_mark : list Z;
  tq_quads : list (list Z); tq_tris : list (list Z) }.
Definition ends_of (r : list Z) : list (Z * Z) := match r with a :: b :: _ => [(a, b)] | _ => [] end.
Definition elems_of (r : list Z) : list (Z * Z) := match r with _ :: _ :: l :: e :: _ => [(l, e)] | _ => [] end.
Definition item_of (i : nat) (r : list Z) : list Z := match nth_error r i with Some z => [z] | None => [] end.
Definition point_of (r : list Q) : list (Q * Q) := match r with x :: y :: _ => [(x, y)] | _ => [] end.
(* the rows have the right length when these are reached *)
Definition read_arrays (id : Z) (ls : list text) : outcome tqm :=
  obind (obind (section_rows id "VERTICES" ls) (fun rs => collect (map (float_fields 2) rs))) (fun vs =>
  obind (int_table id "INTERIOREDGES" 4 ls) (fun is =>
  obind (int_table id "BOUNDARYEDGES" 4 ls) (fun bs =>
  obind (int_table id "QUADS" 5 ls) (fun qs =>
  obind (int_table id "TRIANGLES" 4 ls) (fun ts =>
  Ok (TQ (flat_map point_of vs) (flat_map ends_of is) (flat_map elems_of is)
         (flat_map ends_of bs) (flat_map (item_of 2) bs) (flat_map (item_of 3) bs)
         (map (firstn 4) qs) (map (firstn 3) ts))))))).

(* ---- 222-266: swapping and sorting ---- *)
(* a[ids] *)
Fixpoint gather {A} (l : list A) (ids : list nat) : outcome (list A) :=
  match ids with
  | [] => Ok []
  | i :: r => match nth_error l i with Some x => obind (gather l r) (fun xs => Ok (x :: xs)) | None => Throw end
  end.
(* 252-266 *)
Definition swap_pair (el : Z * Z) (x : Z * Z) : Z * Z := if Z.ltb (fst el) (snd el) then (snd x, fst x) else x.
Definition swap_intr (t : tqm) : tqm :=
  TQ (tq_verts t) (map (fun x => swap_pair (snd x) (fst x)) (combine (tq_intr t) (tq_intr_el t)))
     (map (fun el => swap_pair el el) (tq_intr_el t))
     (tq_bdry t) (tq_bdry_el t) (tq_mark t) (tq_quads t) (tq_tris t).

Section Convert.
(* numpy.argsort: the order of equal keys is not specified *)
Variable argsort : list Z -> list nat.
(* 231-239; an empty array is left alone *)
Definition sort_intr (t : tqm) : outcome tqm :=
  let ids := argsort (map fst (tq_intr_el t)) in
  obind (gather (tq_intr t) ids) (fun e => obind (gather (tq_intr_el t) ids) (fun el =>
  Ok (TQ (tq_verts t) e el (tq_bdry t) (tq_bdry_el t) (tq_mark t) (tq_quads t) (tq_tris t)))).
(* 241-249: bdry_marker is not sorted *)
Definition sort_bdry (t : tqm) : outcome tqm :=
  let ids := argsort (tq_bdry_el t) in
  obind (gather (tq_bdry t) ids) (fun e => obind (gather (tq_bdry_el t) ids) (fun el =>
  Ok (TQ (tq_verts t) (tq_intr t) (tq_intr_el t) e el (tq_mark t) (tq_quads t) (tq_tris t)))).
(* 226-229 *)
Definition sort_mark (t : tqm) : outcome tqm :=
  let ids := argsort (tq_mark t) in
  obind (gather (tq_mark t) ids) (fun m => obind (gather (tq_bdry t) ids) (fun e => obind (gather (tq_bdry_el t) ids) (fun el =>
  Ok (TQ (tq_verts t) (tq_intr t) (tq_intr_el t) e el m (tq_quads t) (tq_tris t))))).
(* 222-229 *)
Definition arrange (t : tqm) : outcome tqm := obind (sort_intr (swap_intr t)) (fun t => obind (sort_bdry t) sort_mark).

(* ---- class OpenFOAMMesh, 282-379 ---- *)
Record foam := FO {
  fo_points : list (Q * Q * Q);
  fo_faces : list (list Z);
  fo_owner : list Z;
  fo_nbr : list Z;
  fo_patches : list (text * (Z * Z)) }.   (* name, startFace, nFaces *)

(* 300-305 *)
Definition foam_points (z : Q) (t : tqm) : list (Q * Q * Q) :=
  map (fun p => (p, 0%Q)) (tq_verts t) ++ map (fun p => (p, z)) (tq_verts t).
(* 308-333 *)
Definition intr_face (n : Z) (e : Z * Z) : list Z := [snd e; fst e; fst e + n; snd e + n]%Z.
Definition bdry_face (n : Z) (e : Z * Z) : list Z := [fst e; snd e; snd e + n; fst e + n]%Z.
Definition cells_of (t : tqm) : list (list Z) := tq_quads t ++ tq_tris t.
Definition foam_faces (n : Z) (t : tqm) : list (list Z) :=
  map (intr_face n) (tq_intr t) ++ map (bdry_face n) (tq_bdry t) ++
  map (@rev Z) (cells_of t) ++ map (map (fun v => v + n)%Z) (cells_of t).
(* 336-344, 347-352 *)
Definition foam_owner (t : tqm) : list Z :=
  let cs := map Z.of_nat (seq 0 (List.length (tq_tris t) + List.length (tq_quads t))) in
  map snd (tq_intr_el t) ++ tq_bdry_el t ++ cs ++ cs.
Definition foam_nbr (t : tqm) : list Z := map fst (tq_intr_el t).
(* numpy.unique: the different values in ascending order *)
Fixpoint insert_new (x : Z) (l : list Z) : list Z :=
  match l with
  | [] => [x]
  | y :: r => if Z.ltb x y then x :: l else if Z.eqb x y then l else y :: insert_new x r
  end.
Definition unique (l : list Z) : list Z := fold_right insert_new [] l.
Definition patch_name (k : nat) : text := chars "boundary_" ++ dec (N.of_nat k).
Definition how_many (m : Z) (l : list Z) : Z := Z.of_nat (List.length (filter (Z.eqb m) l)).
(* 355-379; the names are different keys of a dict, which keeps the order *)
Fixpoint patches_from (k : nat) (offset : Z) (sizes : list Z) : list (text * (Z * Z)) :=
  match sizes with
  | [] => []
  | n :: r => (patch_name k, (offset, n)) :: patches_from (S k) (offset + n) r
  end.
Definition foam_patches (t : tqm) : list (text * (Z * Z)) :=
  let n := Z.of_nat (List.length (tq_tris t) + List.length (tq_quads t)) in
  patches_from 1 (Z.of_nat (List.length (tq_intr t))) (map (fun m => how_many m (tq_mark t)) (unique (tq_mark t)) ++ [n; n]).
(* 284-289; Throw: numpy.hstack of a one-dimensional array and slices of it, when there are
   no vertices or no boundary edges *)
Definition foam_mesh (z : Q) (t : tqm) : outcome foam :=
  match tq_verts t, tq_bdry t with
  | [], _ | _, [] => Throw
  | _, _ => Ok (FO (foam_points z t) (foam_faces (Z.of_nat (List.length (tq_verts t))) t) (foam_owner t) (foam_nbr t) (foam_patches t))
  end.

(* 461-494 main: the first mesh of the file *)
Definition convert (z : Q) (t : text) : outcome foam :=
  let ls := clear_comments (lines t) in
  obind (gather_mesh_ids ls) (fun ids =>
  match ids with
  | [] => Throw
  | id :: _ => obind (read_arrays id ls) (fun raw => obind (arrange raw) (foam_mesh z))
  end).
End Convert.

(* ---- writing ---- *)
(* 432-439: the patches in the order of their names; str < str compares characters *)
Fixpoint text_le (a b : text) : bool :=
  match a, b with
  | [], _ => true
  | _ :: _, [] => false
  | x :: a', y :: b' => if N.ltb (N_of_ascii x) (N_of_ascii y) then true
                        else if N.ltb (N_of_ascii y) (N_of_ascii x) then false else text_le a' b'
  end.
Fixpoint insert_patch (p : text * (Z * Z)) (l : list (text * (Z * Z))) : list (text * (Z * Z)) :=
  match l with
  | [] => [p]
  | q :: r => if text_le (fst p) (fst q) then p :: l else q :: insert_patch p r
  end.
Definition written_patches (fo : foam) : list (text * (Z * Z)) := fold_right insert_patch [] (fo_patches fo).
(* 385 {:g}: six significant digits; [e] is the exponent of the leading digit *)
Definition leading (e : Z) (q : Q) : Prop := (10 ^ e <= Qabs.Qabs q /\ Qabs.Qabs q < 10 ^ (e + 1))%Q.
Definition shown_g (e : Z) (q : Q) : Q := (inject_Z (near_even (q * 10 ^ (5 - e))) * 10 ^ (e - 5))%Q.
