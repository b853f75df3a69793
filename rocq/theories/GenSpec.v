(* What a user expects from the algorithm objects, in terms of the calls made so
   far. *)
From Verif Require Import Base GenModel.

Section GenSpec.
Variable settings : Type.
Variable defaults : akind -> settings.
Notation gop := (gop settings).

(* The settings of kind [k] for mesh [a] after the calls [h], newest first: kept
   from the last call for the same kind and mesh, lost with the last call of the
   same category for another kind or mesh. *)
Fixpoint expected (h : list gop) (k : akind) (a : nat) : settings :=
  match h with
  | [] => defaults k
  | GUse k' a' f :: h' =>
      if acat_eqb (category k') (category k)
      then if akind_eqb k' k && Nat.eqb a' a then f (expected h' k a) else defaults k
      else expected h' k a
  | _ :: h' => expected h' k a
  end.

(* the domain a mesh was created for, newest creation first *)
Fixpoint made_for (h : list gop) (a : nat) : option nat :=
  match h with
  | [] => None
  | GNew a' d :: h' => if Nat.eqb a' a then Some d else made_for h' a
  | _ :: h' => made_for h' a
  end.

(* the addresses of the created meshes *)
Definition created (os : list gop) : list nat := flat_map (fun o => match o with GNew a _ => [a] | _ => [] end) os.
(* some successful merge has removed the mesh *)
Definition merged_away (os : list gop) (a : nat) : Prop := exists r, In (GMerge r a true) os.
(* the addresses of the meshes that exist after the calls [h], newest first: a merge
   that succeeds removes the donor and keeps the receiver *)
Fixpoint alive (h : list gop) : list nat :=
  match h with
  | [] => []
  | GNew a _ :: h' => a :: alive h'
  | GMerge r d true :: h' =>
      if existsb (Nat.eqb r) (alive h') && existsb (Nat.eqb d) (alive h')
      then filter (fun a => negb (Nat.eqb d a)) (alive h') else alive h'
  | _ :: h' => alive h'
  end.
End GenSpec.
