(* Executable model of the algorithm objects of the mesh generator
   (src/algorithm/MeshGenerator.h, MeshBuilder.h).  Meshes are known by their
   addresses; the memory of a removed mesh may be used again for a new one. *)
From Verif Require Import Base.

(* MeshGenerator.h:33-55 without the values None and QMorph *)
Inductive akind := KTriangulation | KQuadLayer | KLaplace | KTorsion | KMixed | KQuadRefinement | KTri2Quad.
Inductive acat := AMeshing | ASmoothing | ARefinement | AModification.
(* the member of MeshGenerator.h:379-392 that stores algorithms of a kind *)
Definition category (k : akind) : acat :=
  match k with
  | KTriangulation | KQuadLayer => AMeshing
  | KLaplace | KTorsion | KMixed => ASmoothing
  | KQuadRefinement => ARefinement
  | KTri2Quad => AModification
  end.
Definition akind_eqb (a b : akind) : bool :=
  match a, b with
  | KTriangulation, KTriangulation | KQuadLayer, KQuadLayer | KLaplace, KLaplace | KTorsion, KTorsion
  | KMixed, KMixed | KQuadRefinement, KQuadRefinement | KTri2Quad, KTri2Quad => true
  | _, _ => false
  end.
Definition acat_eqb (a b : acat) : bool :=
  match a, b with
  | AMeshing, AMeshing | ASmoothing, ASmoothing | ARefinement, ARefinement | AModification, AModification => true
  | _, _ => false
  end.

Section Generator.
(* everything a user can change in an algorithm object, and what a constructed
   one has *)
Variable settings : Type.
Variable defaults : akind -> settings.

(* an algorithm object: its kind, mesh_ and domain_ *)
Record algo := AL { al_kind : akind; al_mesh : nat; al_dom : nat; al_set : settings }.
(* MeshGenerator.h:376-392: meshes_, the pairs of mesh_builder_ and one object per
   category; ..._type_ is its kind, None before the first request *)
Record gen := GN { gn_meshes : list nat; gn_pairs : list (nat * nat); gn_algo : acat -> option algo }.
Definition empty_gen : gen := GN [] [] (fun _ => None).

(* MeshBuilder.h:61-67 *)
Definition get_domain (g : gen) (a : nat) : option nat :=
  option_map snd (find (fun p => Nat.eqb (fst p) a) (gn_pairs g)).
(* MeshGenerator.h:93-107 new_mesh; [a] is the address given by the allocator *)
Definition new_mesh (g : gen) (a d : nat) : gen := GN (gn_meshes g ++ [a]) (gn_pairs g ++ [(a, d)]) (gn_algo g).
(* vector::erase of the first match *)
Fixpoint erase_first {A} (f : A -> bool) (l : list A) : list A :=
  match l with [] => [] | x :: r => if f x then r else x :: erase_first f r end.
(* MeshGenerator.h:112-138 merge_meshes; [ok] is the result of MeshMerger::merge *)
Definition merge_meshes (g : gen) (receiver donor : nat) (ok : bool) : gen * bool :=
  match get_domain g receiver, get_domain g donor with
  | Some _, Some _ =>
      if ok then
        if existsb (Nat.eqb donor) (gn_meshes g)
        then (GN (erase_first (Nat.eqb donor) (gn_meshes g)) (erase_first (fun p => Nat.eqb (fst p) donor) (gn_pairs g)) (gn_algo g), true)
        else (g, false)
      else (g, true)
  | _, _ => (g, false)
  end.

Definition put_algo (g : gen) (o : algo) : gen :=
  GN (gn_meshes g) (gn_pairs g) (fun c => if acat_eqb c (category (al_kind o)) then Some o else gn_algo g c).
(* MeshGenerator.h:160-243 the accessors and 252-371 set_algorithm; Throw is
   TERMINATE *)
Definition access (g : gen) (k : akind) (a : nat) : outcome (gen * algo) :=
  let build := match get_domain g a with
               | None => Throw
               | Some d => let o := AL k a d (defaults k) in Ok (put_algo g o, o)
               end in
  match gn_algo g (category k) with
  | Some o => if akind_eqb (al_kind o) k && Nat.eqb (al_mesh o) a then Ok (g, o) else build
  | None => build
  end.
(* the user changes or runs the returned object *)
Definition configure (g : gen) (o : algo) (f : settings -> settings) : gen :=
  put_algo g (AL (al_kind o) (al_mesh o) (al_dom o) (f (al_set o))).

(* a program that uses the generator *)
Inductive gop := GNew (a d : nat) | GMerge (receiver donor : nat) (ok : bool) | GUse (k : akind) (a : nat) (f : settings -> settings).
Definition gstep (g : gen) (o : gop) : outcome (gen * option algo) :=
  match o with
  | GNew a d => Ok (new_mesh g a d, None)
  | GMerge r d ok => Ok (fst (merge_meshes g r d ok), None)
  | GUse k a f => obind (access g k a) (fun x => Ok (configure (fst x) (snd x) f, Some (snd x)))
  end.
Fixpoint grun (g : gen) (os : list gop) : outcome gen :=
  match os with
  | [] => Ok g
  | o :: r => obind (gstep g o) (fun x => grun (fst x) r)
  end.
End Generator.
Arguments AL {settings}. Arguments al_kind {settings}. Arguments al_mesh {settings}. Arguments al_dom {settings}. Arguments al_set {settings}.
Arguments GNew {settings}. Arguments GMerge {settings}. Arguments GUse {settings}.
Arguments gn_meshes {settings}. Arguments gn_pairs {settings}. Arguments gn_algo {settings}. Arguments empty_gen {settings}.
Arguments get_domain {settings}. Arguments put_algo {settings}. Arguments configure {settings}. Arguments new_mesh {settings}. Arguments merge_meshes {settings}.
