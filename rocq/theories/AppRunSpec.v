(* What a user of the application expects: no algorithm objects, only the list of
   existing meshes. *)
From Coq Require Import String.
From Verif Require Import Base AppRunModel.
Open Scope nat_scope.

(* the calls for one block on its new mesh [a] and its own domain [d] *)
Definition layer_calls (a d : nat) (ls : list layer) : list event := map (fun l => Layered a d (Layer l)) ls.
Definition mesh_calls (a d : nat) (b : block) : option (list event) :=
  if String.eqb (bl_algorithm b) "Tri-to-Quad" then Some [Triangulated a d; Converted a]
  else if String.eqb (bl_algorithm b) "Triangulation" then Some [Triangulated a d]
  else None.
(* the known formats with the extension of their files *)
Definition formats : list (string * (format * string)) :=
  [("vtu", (Vtu, ".vtu")); ("VTU", (Vtu, ".vtu")); ("txt", (Txt, ".txt")); ("TXT", (Txt, ".txt"))]%string.
Definition expected_file (b : block) : format * string :=
  match find (fun f => String.eqb (fst f) (bl_format b)) formats with
  | Some (_, (f, ext)) => (f, String.append (bl_prefix b) ext)
  | None => (Cout, "DUMMY"%string)
  end.
Definition final_calls (a d : nat) (b : block) : list event :=
  repeat (Refined a) (bl_refinements b) ++
  [Smoothed a d (Smoothing (bl_smooth_layers b)) (bl_iterations b); Written a d (fst (expected_file b)) (snd (expected_file b))].

Section Spec.
Variable merges : list event -> nat -> nat -> bool.
Variable complete : list event -> nat -> bool.
Variable new_address new_domain : list event -> list nat -> nat.

(* [ms]: the existing meshes, oldest first; [d]: the domain of the block before *)
Definition merge_calls (log : list event) (ms : list nat) (a : nat) : list nat * list event :=
  match ms with
  | other :: r => let ok := merges log a other in (if ok then r ++ [a] else ms ++ [a], [Merged a other ok])
  | [] => ([a], [])
  end.
Fixpoint expected_run (ms : list nat) (d : option nat) (log : list event) (bs : list block) (success : bool) : option (list nat * list event * bool) :=
  match bs with
  | [] => Some (ms, log, success)
  | b :: r =>
      let d' := new_domain log (match d with Some d => [d] | None => [] end) in
      let a := new_address log ms in
      match mesh_calls a d' b with
      | None => None
      | Some calls =>
          let log1 := (log ++ Created a d' :: layer_calls a d' (bl_layers b) ++ calls)%list in
          let (ms', merging) := merge_calls log1 ms a in
          let log2 := (log1 ++ merging ++ final_calls a d' b)%list in
          let c := complete log2 a in
          expected_run ms' (Some d') (log2 ++ [Checked a d' c])%list r (success && c)
      end
  end.
End Spec.

(* ---- what has happened to the parts of the meshes ---- *)
(* the blocks a mesh is made of, and how often the elements of each were refined;
   meshes by address *)
Definition parts := list (nat * list (nat * nat)).
Definition part_of (p : parts) (a : nat) : list (nat * nat) :=
  match find (fun x => Nat.eqb (fst x) a) p with Some x => snd x | None => [] end.
Definition drop (p : parts) (a : nat) : parts := filter (fun x => negb (Nat.eqb (fst x) a)) p.
(* [i]: the number of the block; newest event last *)
Fixpoint replay (i : nat) (p : parts) (es : list event) : parts :=
  match es with
  | [] => p
  | Created a _ :: r => replay i ((a, [(i, 0)]) :: drop p a) r
  | Merged a o true :: r => replay i ((a, part_of p a ++ part_of p o) :: drop (drop p a) o) r
  | Refined a :: r => replay i ((a, map (fun x => (fst x, S (snd x))) (part_of p a)) :: drop p a) r
  | Checked _ _ _ :: r => replay (S i) p r
  | _ :: r => replay i p r
  end.

(* two meshes share boundary edges iff blocks of theirs do *)
Definition touching (adj : nat -> nat -> bool) (p : parts) (a o : nat) : bool :=
  existsb (fun x => existsb (fun y => adj (fst x) (fst y)) (part_of p o)) (part_of p a).
Definition by_touching (adj : nat -> nat -> bool) (l : list event) (a o : nat) : bool := touching adj (replay 0 [] l) a o.
(* the blocks are connected *)
Inductive linked (adj : nat -> nat -> bool) (n : nat) : nat -> nat -> Prop :=
| linked_refl i : linked adj n i i
| linked_step i j k : j < n -> (adj i j = true \/ adj j i = true) -> linked adj n j k -> linked adj n i k.
