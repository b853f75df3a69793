(* Executable model of the main loop of the application (src/app/TQMeshApp.h) on
   the algorithm objects of GenModel.  What the algorithms do to the elements is
   left open; a run is the list of calls it makes. *)
From Coq Require Import String.
From Verif Require Import Base GenModel.
Open Scope nat_scope.

(* one row of the quad layer parameter (TQMeshApp.h:315-336) *)
Record layer := LY { ly_from : vec2; ly_to : vec2; ly_n : Z; ly_height : Q; ly_growth : Q }.
(* the parameters of a mesh block that generate_mesh reads (members of
   TQMeshApp.h:884-907); the domain is given by its address *)
Record block := BL { bl_prefix : string; bl_format : string; bl_layers : list layer; bl_algorithm : string;
  bl_refinements : nat; bl_iterations : nat; bl_smooth_layers : bool }.

(* what is set at an algorithm object before it is started (149-157, 162-164, 195-197);
   the iterations of the smoothing are an argument of smooth *)
Inductive setting := Fresh | Layer (l : layer) | Smoothing (layers : bool).
Definition defaults (k : akind) : setting := match k with KMixed => Smoothing false | _ => Fresh end.

Inductive format := Vtu | Txt | Cout.
(* the calls of generate_mesh; [m] is the address of the mesh an object works on, [d] the
   address of its domain *)
Inductive event :=
| Created (m d : nat)
| Layered (m d : nat) (s : setting)
| Triangulated (m d : nat)
| Converted (m : nat)
| Merged (receiver donor : nat) (ok : bool)
| Refined (m : nat)
| Smoothed (m d : nat) (s : setting) (n : nat)
| Written (m d : nat) (f : format) (file : string)
| Checked (m d : nat) (complete : bool).

Record world := WO { wo_gen : gen setting; wo_dom : option nat; wo_log : list event }.
Definition log (w : world) (e : event) : world := WO (wo_gen w) (wo_dom w) (wo_log w ++ [e]).

(* members that follow domain_ of the algorithm object: RefinementStrategy.h and
   ModificationStrategy.h only store it *)
Definition uses_domain (k : akind) : bool := match k with KQuadRefinement | KTri2Quad => false | _ => true end.
(* mesh_generator_.<accessor>(mesh).<setters>.<run>: the object may be an old one
   (MeshGenerator.h:160-243); a dead mesh or domain behind it is undefined *)
Definition alive_at (w : world) (k : akind) (o : algo setting) : bool :=
  existsb (Nat.eqb (al_mesh o)) (gn_meshes (wo_gen w)) &&
  (negb (uses_domain k) || match wo_dom w with Some d => Nat.eqb d (al_dom o) | None => false end).
Definition call (w : world) (k : akind) (a : nat) (f : setting -> setting) (e : algo setting -> event) : outcome world :=
  obind (access setting defaults (wo_gen w) k a) (fun x =>
    let g := configure (fst x) (snd x) f in
    let o := AL (al_kind (snd x)) (al_mesh (snd x)) (al_dom (snd x)) (f (al_set (snd x))) in
    if alive_at w k o then Ok (WO g (wo_dom w) (wo_log w ++ [e o])) else UB).

(* TQMeshApp.h:143-158 *)
Fixpoint make_layers (w : world) (a : nat) (ls : list layer) : outcome world :=
  match ls with
  | [] => Ok w
  | l :: r => obind (call w KQuadLayer a (fun _ => Layer l) (fun o => Layered (al_mesh o) (al_dom o) (al_set o))) (fun w => make_layers w a r)
  end.
(* 161-179; show_progress only concerns the output *)
Definition triangulate (w : world) (a : nat) : outcome world :=
  call w KTriangulation a (fun s => s) (fun o => Triangulated (al_mesh o) (al_dom o)).
Definition mesh_it (w : world) (a : nat) (b : block) : outcome world :=
  if String.eqb (bl_algorithm b) "Tri-to-Quad" then
    obind (triangulate w a) (fun w => call w KTri2Quad a (fun s => s) (fun o => Converted (al_mesh o)))
  else if String.eqb (bl_algorithm b) "Triangulation" then triangulate w a
  else Throw.
Section Run.
(* the result of MeshMerger::merge and of the completeness check after the calls so far *)
Variable merges : list event -> nat -> nat -> bool.
Variable complete : list event -> nat -> bool.
(* addresses given by the allocator for a mesh and for a domain; the argument is what it
   may not return *)
Variable new_address new_domain : list event -> list nat -> nat.

(* 182-192; the assertions are empty in the release build; MeshGenerator.h:77-82 mesh() *)
Definition merge_first (w : world) (a : nat) : outcome world :=
  match gn_meshes (wo_gen w) with
  | other :: _ :: _ =>
      let ok := merges (wo_log w) a other in
      let (g, _) := merge_meshes (wo_gen w) a other ok in
      Ok (WO g (wo_dom w) (wo_log w ++ [Merged a other ok]))
  | _ => Ok w
  end.
(* 195-196 *)
Fixpoint refine (n : nat) (w : world) (a : nat) : outcome world :=
  match n with
  | O => Ok w
  | S n' => obind (call w KQuadRefinement a (fun s => s) (fun o => Refined (al_mesh o))) (fun w => refine n' w a)
  end.
(* 199-201 *)
Definition smooth (w : world) (a : nat) (b : block) : outcome world :=
  call w KMixed a (fun _ => Smoothing (bl_smooth_layers b)) (fun o => Smoothed (al_mesh o) (al_dom o) (al_set o) (bl_iterations b)).
(* 207-222; MeshGenerator.h:144-154 write_mesh uses the registered domain *)
Definition file_of (b : block) : format * string :=
  if (String.eqb (bl_format b) "VTU" || String.eqb (bl_format b) "vtu")%bool then (Vtu, String.append (bl_prefix b) ".vtu")
  else if (String.eqb (bl_format b) "TXT" || String.eqb (bl_format b) "txt")%bool then (Txt, String.append (bl_prefix b) ".txt")
  else (Cout, "DUMMY"%string).
Definition write (w : world) (a : nat) (b : block) : outcome world :=
  match get_domain (wo_gen w) a with
  | None => Ok w
  | Some d => match wo_dom w with
              | Some d' => if Nat.eqb d d' then Ok (log w (Written a d (fst (file_of b)) (snd (file_of b)))) else UB
              | None => UB
              end
  end.
(* 133-236 generate_mesh *)
Definition generate_mesh (w : world) (b : block) : outcome (world * bool) :=
  match wo_dom w with
  | None => UB
  | Some d =>
      let a := new_address (wo_log w) (gn_meshes (wo_gen w)) in
      let w := WO (new_mesh (wo_gen w) a d) (wo_dom w) (wo_log w ++ [Created a d]) in
      obind (make_layers w a (bl_layers b)) (fun w =>
      obind (mesh_it w a b) (fun w =>
      obind (merge_first w a) (fun w =>
      obind (refine (bl_refinements b) w a) (fun w =>
      obind (smooth w a b) (fun w =>
      obind (write w a b) (fun w =>
      let c := complete (wo_log w) a in
      Ok (log w (Checked a d c), c)))))))
  end.
(* 781-793 init_mesh_domain: the new Domain exists before the old one is deleted *)
Definition init_domain (w : world) : world :=
  WO (wo_gen w) (Some (new_domain (wo_log w) (match wo_dom w with Some d => [d] | None => [] end))) (wo_log w).
(* 93-126 construct_mesh and 925-956 run; None: reading the parameters of the block throws *)
Fixpoint run (w : world) (bs : list (option block)) (success : bool) : outcome (world * bool) :=
  match bs with
  | [] => Ok (w, success)
  | None :: _ => Throw
  | Some b :: r => obind (generate_mesh (init_domain w) b) (fun x => run (fst x) r (success && snd x))
  end.
Definition start : world := WO empty_gen None [].
End Run.
