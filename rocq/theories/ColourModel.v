(* Colours of elements from new_mesh on: the parts that the other models leave
   open. *)
From Verif Require Import Base GeomModel FacetModel UtilModel BdryModel AdvanceModel LoopModel QLayerModel.

(* MathUtility.h:36-38 ABS on int: the smallest int has no negative *)
Definition int_min : Z := (- 2 ^ 31)%Z.
Definition int_abs (a : Z) : outcome Z := if Z.ltb 0 a then Ok a else if Z.eqb a int_min then UB else Ok (- a)%Z.

(* Mesh.h:39-49 with MeshGenerator.h:94-107 new_mesh: no elements, and the
   colour of the mesh.  Vertices, boundary edges and front are those of the
   domain (BdryModel). *)
Definition new_mesh (color : Z) (pos : nat -> vec2) (onf : nat -> bool) (verts : list nat) (nv : nat)
                    (front : list bedge) (ne : nat) : outcome mstate :=
  obind (int_abs color) (fun c => Ok (MS pos onf verts nv front ne [] [] 0 [] 0 c)).

(* One call of the mesh generation before the final clean up of the facets:
   triangulation (Triangulation.h:63-106) or quad layers (QuadLayering.h:565-607).
   Between two calls the front is set up anew from the mesh edges
   (MeshingStrategy.h:62-73): any front is allowed here. *)
Record oracles := OR {
  o_scale : Q; o_tri : mstate -> tri -> bool; o_vtx : mstate -> nat -> bool; o_qual : mstate -> tri -> Q;
  o_new : mstate -> bedge -> vec2; o_query : mstate -> bedge -> bool -> list nat;
  o_norm : vec2 -> Q; o_sin : vec2 -> vec2 -> Q; o_cos : vec2 -> vec2 -> Q; o_sharp : vec2 -> vec2 -> bool;
  o_rho : vec2 -> Q; o_near : mstate -> vec2 -> Q -> list nat }.
Inductive gcall :=
| GFront (onf : nat -> bool) (front : list bedge) (ne : nat)
| GTriangulate (fuel : nat) (n : Z)
| GLayers (n : nat) (height rate : Q) (xs xe : vec2).
Definition with_front (st : mstate) (onf : nat -> bool) (front : list bedge) (ne : nat) : mstate :=
  MS (ms_pos st) onf (ms_verts st) (ms_nv st) front ne (ms_intr st) (ms_tris st) (ms_nt st) (ms_quads st) (ms_area st) (ms_col st).
(* Throw: the fuel did not suffice *)
Definition gstep (o : oracles) (st : qstate) (c : gcall) : outcome qstate :=
  match c with
  | GFront onf front ne => Ok (on_mesh st (with_front (q_m st) onf front ne))
  | GTriangulate fuel n =>
      match generate (o_scale o) (o_tri o) (o_vtx o) (o_qual o) (o_new o) (o_query o) fuel n (q_m st) with
      | Some (Ok (m, _, _)) => Ok (on_mesh st m)
      | Some UB => UB
      | Some Throw | None => Throw
      end
  | GLayers n height rate xs xe =>
      obind (layers (o_norm o) (o_sin o) (o_cos o) (o_sharp o) (o_rho o) (o_scale o) (o_tri o) (o_vtx o) (o_qual o) (o_near o)
                    n st height rate xs xe) (fun x => Ok (close_front (fst (fst x))))
  end.
Fixpoint gruns (o : oracles) (st : qstate) (cs : list gcall) : outcome qstate :=
  match cs with [] => Ok st | c :: r => obind (gstep o st c) (fun st' => gruns o st' r) end.
