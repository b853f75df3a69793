(* Specification vocabulary for the connection of neighbouring meshes. *)
From Verif Require Import Base GeomModel GeomSpec UtilModel BdryModel AdvanceModel MeshModel MeshSpec QRefineSpec CleanSpec MergerSpec FrontModel FrontSpec ClearSpec.
From Verif Require WindMesh.

(* edge e of the new front and boundary edge t of mesh m join the same points in
   opposite directions *)
Definition coincide (pos : nat -> vec2) (e : bedge) (m : mesh) (t : medge) : Prop :=
  veq (pos (be_v1 e)) (mh_pos m (ed_2 t)) /\ veq (pos (be_v2 e)) (mh_pos m (ed_1 t)).

(* the mesh without its pointers to neighbour meshes *)
Definition untwin (e : medge) : medge := ED (ed_id e) (ed_1 e) (ed_2 e) (ed_col e) (ed_prop e) (ed_l e) (ed_r e) None.
Definition untwinned (m : mesh) : mesh :=
  MH (mh_pos m) (mh_prop m) (mh_verts m) (mh_quads m) (mh_tris m) (mh_intr m) (map untwin (mh_bdry m)) (mh_nbr m) (mh_next m) (mh_area m) (mh_col m) (mh_scale m).

(* a boundary edge as a segment of the domain *)
Definition segment_of (m : mesh) (e : medge) : dedge :=
  DE (mh_pos m (ed_1 e)) (mh_pos m (ed_2 e)) (ed_col e) (has_property (ed_prop e) e_is_fixed).
Definition segments_of (ms : list mesh) : list (list dedge) := map (fun m => map (segment_of m) (mh_bdry m)) ms.

(* a new domain and the meshes beside it: where neighbour edges lie on the edges of
   the domain, they replace them, and what comes out are simple closed curves *)
Record ready (sub : vec2 -> vec2 -> list vec2) (bounds fixed : list dedge) (ms : list mesh) : Prop := {
  rd_simple : simple_curves (map fst (flat_map (wanted (segments_of ms)) bounds));
  rd_bounds : forall e, In e bounds -> de_fix e = false;
  rd_fixed : forall e, In e fixed -> de_fix e = true;
  rd_loose : forall e, In e (concat (segments_of ms)) -> de_fix e = false;
  rd_edges : forall e, In e (bounds ++ fixed ++ concat (segments_of ms)) -> veqb (de_a e) (de_b e) = false /\
     in_square front_scale (de_a e) = true /\ in_square front_scale (de_b e) = true;
  rd_sub : forall a b, ~ veq a b -> strictly_inside a b (sub a b);
  rd_line : forall a b, Forall (on_line a b) (sub a b);
  rd_ids : NoDup (map ed_id (flat_map mh_bdry ms))
}.

(* coordinates in lowest terms: equal places have equal coordinates *)
Definition plain (p : vec2) : Prop := Qred (vx p) = vx p /\ Qred (vy p) = vy p.

(* the meshes of a generator around the receiver [r], all their addresses below [n];
   their pointers lead to boundary edges *)
Record around (n : nat) (r : mesh) (oth : list mesh) : Prop := {
  ar_sound : sound r;
  ar_centred : all_centred r;
  ar_points : distinct_points r;
  ar_simple : WindMesh.simple_elements r;
  ar_below : forall m, In m (r :: oth) -> (forall e, In e (mh_bdry m) -> (ed_id e < n)%nat) /\ (forall f, In f (facets m) -> (fa_id f < n)%nat);
  ar_facets : NoDup (map fa_id (flat_map facets (r :: oth)));
  ar_twin : forall e i, In e (flat_map mh_bdry (r :: oth)) -> ed_twin e = Some i -> exists t, In t (flat_map mh_bdry (r :: oth)) /\ ed_id t = i;
  ar_left : forall m e i, In m oth -> In e (mh_bdry m) -> ed_l e = Some i -> exists f, In f (facets m) /\ fa_id f = i;
  ar_next : forall m, In m oth -> (forall e, In e (mh_bdry m) -> (ed_id e < mh_next m)%nat) /\
                                  (forall f, In f (facets m) -> (fa_id f < mh_next m)%nat);
  ar_plain : forall e, In e (mh_bdry r) -> plain (mh_pos r (ed_1 e)) /\ plain (mh_pos r (ed_2 e))
}.
