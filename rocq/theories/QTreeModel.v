(* Executable model of src/utils/QuadTree.h and src/utils/Container.h
   (release build: ASSERT is compiled out).

   Items are identified by natural numbers (their addresses); the location of
   an item lives in the item itself (ContainerEntry::xy_), hence all functions
   take the location store [pos : nat -> vec2]. *)
From Verif Require Import Base.

Definition id := nat.

(* --------------------------------------------------------------------- *)
(* src/utils/Geometry.h:372-383  rect_overlap *)
Definition rect_overlap (all aur bll bur : vec2) : bool :=
  Qleb (vx all) (vx bur) && Qleb (vx bll) (vx aur) &&
  Qleb (vy all) (vy bur) && Qleb (vy bll) (vy aur).

(* src/utils/Geometry.h:390-397  in_on_rect *)
Definition in_on_rect (v ll ur : vec2) : bool :=
  Qleb (vx ll) (vx v) && Qleb (vy ll) (vy v) &&
  Qleb (vx v) (vx ur) && Qleb (vy v) (vy ur).

(* --------------------------------------------------------------------- *)
(* Geometry of one tree node: scale_ and center_ (QuadTree.h:569-576). *)
Record geo := Geo { g_scale : Q; g_center : vec2 }.

(* QuadTree.h:412-415 : halfscale_, lowleft_, upright_ *)
Definition g_half (g : geo) : Q := g_scale g / 2.
Definition g_ll (g : geo) : vec2 :=
  V2 (vx (g_center g) - g_half g) (vy (g_center g) - g_half g).
Definition g_ur (g : geo) : vec2 :=
  V2 (vx (g_center g) + g_half g) (vy (g_center g) + g_half g).

(* QuadTree.h:489-511 : the four children NE, NW, SW, SE *)
Definition child (g : geo) (j : nat) : geo :=
  let h := g_half g / 2 in
  let c := g_center g in
  Geo (g_half g)
      (match j with
       | O => V2 (vx c + h) (vy c + h)
       | 1%nat => V2 (vx c - h) (vy c + h)
       | 2%nat => V2 (vx c - h) (vy c - h)
       | _ => V2 (vx c + h) (vy c - h)
       end).

(* A tree node: [n] is the stored counter n_items_ (QuadTree.h:580), a leaf
   holds its item list, a split node its four children.  The counter is an
   unbounded integer here (size_t in the code); the theorems show that it is
   the non-negative number of stored items. *)
Inductive qtree :=
| QLeaf (n : Z) (items : list id)
| QNode (n : Z) (c0 c1 c2 c3 : qtree).

Definition q_n (t : qtree) : Z :=
  match t with QLeaf n _ => n | QNode n _ _ _ _ => n end.
Definition q_split (t : qtree) : bool :=
  match t with QLeaf _ _ => false | QNode _ _ _ _ _ => true end.
Definition q_leaf_items (t : qtree) : list id :=
  match t with QLeaf _ l => l | QNode _ _ _ _ _ => [] end.

(* All items stored below a node, in the order of the children. *)
Fixpoint q_ids (t : qtree) : list id :=
  match t with
  | QLeaf _ l => l
  | QNode _ c0 c1 c2 c3 => q_ids c0 ++ q_ids c1 ++ q_ids c2 ++ q_ids c3
  end.

(* Result of QuadTree::add: accepted, rejected (returns false), or the
   exception path of split_qtree()/distribute_items() (QuadTree.h:335-343,
   524-527, 553-556), which leaves a corrupted tree. *)
Inductive addres :=
| Added (t : qtree)
| Rejected
| SplitFailed.

Section QTree.
Variable max_item : Z.            (* max_item_ *)
Variable pos : id -> vec2.        (* ContainerEntry::xy_ *)

Definition inside (g : geo) (i : id) : bool := in_on_rect (pos i) (g_ll g) (g_ur g).

(* QuadTree.h:473-479 / 548-551: children_[0]->add(item) || ... || children_[3]->add(item).
   A rejecting child is unchanged. *)
Definition try_children (addf : geo -> qtree -> id -> addres) (g : geo)
    (c0 c1 c2 c3 : qtree) (i : id) : option (qtree * qtree * qtree * qtree) + unit :=
  match addf (child g 0) c0 i with
  | Added t => inl (Some (t, c1, c2, c3))
  | SplitFailed => inr tt
  | Rejected =>
    match addf (child g 1) c1 i with
    | Added t => inl (Some (c0, t, c2, c3))
    | SplitFailed => inr tt
    | Rejected =>
      match addf (child g 2) c2 i with
      | Added t => inl (Some (c0, c1, t, c3))
      | SplitFailed => inr tt
      | Rejected =>
        match addf (child g 3) c3 i with
        | Added t => inl (Some (c0, c1, c2, t))
        | SplitFailed => inr tt
        | Rejected => inl None
        end
      end
    end
  end.

(* QuadTree.h:537-564 distribute_items: takes items from the back of the
   list; [rl] is the reversed list. *)
Fixpoint distribute (addf : geo -> qtree -> id -> addres) (g : geo)
    (rl : list id) (c0 c1 c2 c3 : qtree) : option (qtree * qtree * qtree * qtree) :=
  match rl with
  | [] => Some (c0, c1, c2, c3)
  | i :: rl' =>
    match try_children addf g c0 c1 c2 c3 i with
    | inl (Some (d0, d1, d2, d3)) => distribute addf g rl' d0 d1 d2 d3
    | _ => None
    end
  end.

Definition empty_leaf : qtree := QLeaf 0 [].

(* QuadTree.h:316-347 add, 466-480 pass_children, 485-532 split_qtree.
   [k] is max_depth_ - depth_.  The counter updates through parent pointers
   (add_item_number, lines 421-428) are folded into the returned tree: +1 on
   the path for a new item, and +1-1 for each redistributed item.
   A split node at k = 0 cannot exist: a node is only split while depth_ <
   max_depth_ and max_depth_ cannot be changed afterwards (lines 398-403). *)
Fixpoint qadd (k : nat) (g : geo) (t : qtree) (i : id) : addres :=
  if negb (inside g i) then Rejected else
  match t with
  | QNode n c0 c1 c2 c3 =>
    match k with
    | O => SplitFailed
    | S k' =>
      match try_children (qadd k') g c0 c1 c2 c3 i with
      | inl (Some (d0, d1, d2, d3)) => Added (QNode (n + 1) d0 d1 d2 d3)
      | inl None => Rejected
      | inr _ => SplitFailed
      end
    end
  | QLeaf n items =>
    let items' := items ++ [i] in
    match k with
    | O => Added (QLeaf (n + 1) items')
    | S k' =>
      if Z.ltb max_item (Z.of_nat (length items')) then
        match distribute (qadd k') g (rev items') empty_leaf empty_leaf empty_leaf empty_leaf with
        | Some (d0, d1, d2, d3) => Added (QNode (n + 1) d0 d1 d2 d3)
        | None => SplitFailed
        end
      else Added (QLeaf (n + 1) items')
    end
  end.

(* std::list::remove *)
Definition list_remove (i : id) (l : list id) : list id :=
  filter (fun j => negb (Nat.eqb j i)) l.

(* QuadTree.h:435-461 merge() *)
Definition qmerge (t : qtree) : qtree :=
  match t with
  | QLeaf n l => QLeaf n l
  | QNode n c0 c1 c2 c3 =>
    if q_split c0 || q_split c1 || q_split c2 || q_split c3 then t
    else QLeaf n (q_leaf_items c0 ++ q_leaf_items c1 ++ q_leaf_items c2 ++ q_leaf_items c3)
  end.

(* QuadTree.h:352-391 remove.  [None] = returns false (tree unchanged).
   The second component tells whether a leaf was reached, i.e. whether
   add_item_number(-1) was propagated to the parents. *)
Fixpoint qremove (g : geo) (t : qtree) (i : id) : option (qtree * bool) :=
  if negb (inside g i) then None else
  match t with
  | QLeaf n items => Some (QLeaf (n - 1) (list_remove i items), true)
  | QNode n c0 c1 c2 c3 =>
    let fin (removed : bool) (d0 d1 d2 d3 : qtree) :=
      let n' := if removed then (n - 1)%Z else n in
      let t' := QNode n' d0 d1 d2 d3 in
      if Z.leb n' max_item then Some (qmerge t', removed) else Some (t', removed) in
    match qremove (child g 0) c0 i with
    | Some (d, b) => fin b d c1 c2 c3
    | None =>
      match qremove (child g 1) c1 i with
      | Some (d, b) => fin b c0 d c2 c3
      | None =>
        match qremove (child g 2) c2 i with
        | Some (d, b) => fin b c0 c1 d c3
        | None =>
          match qremove (child g 3) c3 i with
          | Some (d, b) => fin b c0 c1 c2 d
          | None => fin false c0 c1 c2 c3
          end
        end
      end
    end
  end.

(* QuadTree.h:212-227 get_leaf.  Returns the geometry and the node found;
   [None] = nullptr. *)
Fixpoint qleaf (g : geo) (t : qtree) (q : vec2) : option (geo * qtree) :=
  if negb (in_on_rect q (g_ll g) (g_ur g)) then None else
  match t with
  | QLeaf _ _ => Some (g, t)
  | QNode _ c0 c1 c2 c3 =>
    match qleaf (child g 0) c0 q with
    | Some r => Some r
    | None =>
      match qleaf (child g 1) c1 q with
      | Some r => Some r
      | None =>
        match qleaf (child g 2) c2 q with
        | Some r => Some r
        | None =>
          match qleaf (child g 3) c3 q with
          | Some r => Some r
          | None => Some (g, t)
          end
        end
      end
    end
  end.

(* QuadTree.h:234-266 get_items for a rectangle.  [qf] is the query function
   handed to this call; the recursive calls (line 251) use the default one. *)
Definition rect_query (ll ur : vec2) (i : id) : bool := in_on_rect (pos i) ll ur.

Fixpoint q_rect_with (qf : id -> bool) (g : geo) (t : qtree) (ll ur : vec2) : list id :=
  if negb (rect_overlap (g_ll g) (g_ur g) ll ur) then [] else
  match t with
  | QLeaf _ items => filter qf items
  | QNode _ c0 c1 c2 c3 =>
    let d := rect_query ll ur in
    q_rect_with d (child g 0) c0 ll ur ++ q_rect_with d (child g 1) c1 ll ur ++
    q_rect_with d (child g 2) c2 ll ur ++ q_rect_with d (child g 3) c3 ll ur
  end.

Definition q_rect (g : geo) (t : qtree) (ll ur : vec2) : list id :=
  q_rect_with (rect_query ll ur) g t ll ur.

(* QuadTree.h:271-311 get_items for a circle *)
Definition circ_query (c : vec2) (r2 : Q) (i : id) : bool :=
  Qltb (vnorm2 (vsub (pos i) c)) r2.

Definition c14142 : Q := 14142 # 10000.

Fixpoint q_circ (g : geo) (t : qtree) (c : vec2) (r : Q) : list id :=
  let rs := c14142 * r in
  let ll := V2 (vx c - rs) (vy c - rs) in
  let ur := V2 (vx c + rs) (vy c + rs) in
  if negb (rect_overlap (g_ll g) (g_ur g) ll ur) then [] else
  match t with
  | QLeaf _ items => filter (circ_query c (r * r)) items
  | QNode _ c0 c1 c2 c3 =>
    q_circ (child g 0) c0 c r ++ q_circ (child g 1) c1 c r ++
    q_circ (child g 2) c2 c r ++ q_circ (child g 3) c3 c r
  end.

(* QuadTree.h:46-58, 194-204: scan for the nearest item, state
   (min_dist_sqr, winner). *)
Definition near_step (q : vec2) (st : Q * option id) (i : id) : Q * option id :=
  let d := vnorm2 (vsub (pos i) q) in
  if Qltb d (fst st) then (d, Some i) else st.

(* QuadTree.h:186-207 get_nearest.  [sqrt] is the square root of <cmath>.
   A null leaf (query outside of the tree) is dereferenced: UB. *)
Definition q_nearest (sqrt : Q -> Q) (g : geo) (t : qtree) (q : vec2) : outcome (option id) :=
  match qleaf g t q with
  | None => UB
  | Some (gl, tl) =>
    let st0 := (4 * g_scale gl * g_scale gl, @None id) in
    let st1 := fold_left (near_step q) (q_leaf_items tl) st0 in
    let found := q_circ g t q (4 * sqrt (fst st1)) in
    Ok (snd (fold_left (near_step q) found st1))
  end.

End QTree.

(* --------------------------------------------------------------------- *)
(* src/utils/Container.h *)

(* Parameters of the constructor (Container.h:51-55): the tree is centred at
   the origin. *)
Record cparams := CP { cp_scale : Q; cp_items : Z; cp_depth : nat }.
Definition cp_root (p : cparams) : geo := Geo (cp_scale p) (V2 0 0).

Record cstate := CS {
  cs_items : list id;      (* items_ in list order *)
  cs_waste : list id;      (* waste_ *)
  cs_pos   : id -> vec2;   (* xy_ of all objects *)
  cs_tree  : qtree;        (* qtree_ *)
  cs_next  : id            (* next fresh address *)
}.

Definition c_init : cstate := CS [] [] (fun _ => V2 0 0) empty_leaf 0%nat.

Definition upd (f : id -> vec2) (i : id) (v : vec2) : id -> vec2 :=
  fun j => if Nat.eqb j i then v else f j.

Inductive cop :=
| CPush (xy : vec2)               (* push_back / insert at the end *)
| CInsert (k : nat) (xy : vec2)   (* insert before the k-th element *)
| CRemove (i : id)
| CMove (i : id) (xy : vec2)      (* update(item, xy) *)
| CClear.                         (* clear_waste *)

(* Return values: the address of a new item or the boolean. *)
Inductive cret := RItem (i : id) | RBool (b : bool) | RUnit.

Definition insert_at {A} (k : nat) (x : A) (l : list A) : list A :=
  firstn k l ++ x :: skipn k l.

Section Container.
Variable p : cparams.

(* Container.h:141-161 insert: the item is linked into the list even if the
   tree rejects it.  [SplitFailed] is the logged exception path. *)
Definition c_insert (s : cstate) (k : nat) (xy : vec2) : outcome (cstate * cret) :=
  let i := cs_next s in
  let pos' := upd (cs_pos s) i xy in
  let items' := insert_at k i (cs_items s) in
  match qadd (cp_items p) pos' (cp_depth p) (cp_root p) (cs_tree s) i with
  | Added t => Ok (CS items' (cs_waste s) pos' t (S i), RItem i)
  | Rejected => Ok (CS items' (cs_waste s) pos' (cs_tree s) (S i), RItem i)
  | SplitFailed => UB
  end.

(* Container.h:174-188 remove.  The argument must be an item of this
   container: splicing an iterator of another list (an item that was removed
   before) or a dead object is undefined behaviour. *)
Definition c_remove (s : cstate) (i : id) : outcome (cstate * cret) :=
  if negb (existsb (Nat.eqb i) (cs_items s)) then UB else
  match qremove (cp_items p) (cs_pos s) (cp_root p) (cs_tree s) i with
  | Some (t, _) =>
    Ok (CS (list_remove i (cs_items s)) (cs_waste s ++ [i]) (cs_pos s) t (cs_next s), RBool true)
  | None => Ok (s, RBool false)
  end.

(* Container.h:193-209 update.  A null leaf (item outside of the tree) is
   dereferenced. *)
Definition c_move (s : cstate) (i : id) (xy : vec2) : outcome (cstate * cret) :=
  if negb (existsb (Nat.eqb i) (cs_items s)) then UB else
  match qleaf (cp_root p) (cs_tree s) (cs_pos s i) with
  | None => UB
  | Some (gl, _) =>
    if in_on_rect xy (g_ll gl) (g_ur gl) then
      Ok (CS (cs_items s) (cs_waste s) (upd (cs_pos s) i xy) (cs_tree s) (cs_next s), RBool true)
    else
      match qremove (cp_items p) (cs_pos s) (cp_root p) (cs_tree s) i with
      | None => Ok (s, RBool false)
      | Some (t, _) =>
        let pos' := upd (cs_pos s) i xy in
        match qadd (cp_items p) pos' (cp_depth p) (cp_root p) t i with
        | Added t' => Ok (CS (cs_items s) (cs_waste s) pos' t' (cs_next s), RBool true)
        | Rejected => Ok (CS (cs_items s) (cs_waste s) pos' t (cs_next s), RBool false)
        | SplitFailed => UB
        end
      end
  end.

Definition c_step (s : cstate) (o : cop) : outcome (cstate * cret) :=
  match o with
  | CPush xy => c_insert s (length (cs_items s)) xy
  | CInsert k xy => c_insert s k xy
  | CRemove i => c_remove s i
  | CMove i xy => c_move s i xy
  | CClear => Ok (CS (cs_items s) [] (cs_pos s) (cs_tree s) (cs_next s), RUnit)
  end.

Fixpoint c_run (s : cstate) (ops : list cop) : outcome (cstate * list cret) :=
  match ops with
  | [] => Ok (s, [])
  | o :: os =>
    match c_step s o with
    | Ok (s', r) =>
      match c_run s' os with
      | Ok (s'', rs) => Ok (s'', r :: rs)
      | UB => UB
      | Throw => Throw
      end
    | UB => UB
    | Throw => Throw
    end
  end.

(* Container.h:111-134 *)
Definition c_get_rect (s : cstate) (ll ur : vec2) : list id :=
  q_rect (cs_pos s) (cp_root p) (cs_tree s) ll ur.
Definition c_get_circ (s : cstate) (c : vec2) (r : Q) : list id :=
  q_circ (cs_pos s) (cp_root p) (cs_tree s) c r.
Definition c_get_nearest (sqrt : Q -> Q) (s : cstate) (q : vec2) : outcome (option id) :=
  q_nearest (cs_pos s) sqrt (cp_root p) (cs_tree s) q.
Definition c_size (s : cstate) : nat := length (cs_items s).

End Container.
