(* Executable model of the loops of src/algorithm/Triangulation.h on top of the
   front update (AdvanceModel). *)
From Verif Require Import Base GeomModel FacetModel UtilModel BdryModel AdvanceModel.

(* Front.h:143-149 *)
Definition set_base_first (es : list bedge) : option nat :=
  match es with [] => None | e :: _ => Some (be_id e) end.

(* the edges behind the edge with address k; None: not in the list *)
Fixpoint behind (k : nat) (es : list bedge) : option (list bedge) :=
  match es with
  | [] => None
  | e :: r => if Nat.eqb (be_id e) k then Some r else behind k r
  end.

(* Front.h:154-165: base_ must be an edge of the front *)
Definition set_base_next (es : list bedge) (base : nat) : outcome (option nat) :=
  match es with
  | [] => Ok None
  | first :: _ =>
    match behind base es with
    | None => UB
    | Some [] => Ok (Some (be_id first))
    | Some (f :: _) => Ok (Some (be_id f))
    end
  end.

(* Edge.h:175-193 on the front *)
Definition get_next_edge (es : list bedge) (e : bedge) : option bedge :=
  oldest (filter (fun f => Nat.eqb (be_v1 f) (be_v2 e) && negb (Nat.eqb (be_id f) (be_id e))) es).

(* conversion of size_t to int *)
Definition to_int (n : Z) : Z := ((n + 2 ^ 31) mod 2 ^ 32 - 2 ^ 31)%Z.

Section Loops.
Variable mesh_scale : Q.
Variable tri_ok : mstate -> tri -> bool.
Variable vtx_ok : mstate -> nat -> bool.
Variable qual : mstate -> tri -> Q.
(* Triangulation.h:157-177: position of the new vertex (midpoint + normal *
   MIN(..)) and the vertices found around it; normal and lengths need square
   roots, so both are arbitrary here *)
Variable newpos : mstate -> bedge -> vec2.
Variable query : mstate -> bedge -> bool -> list nat.

Notation fstep := (fstep mesh_scale tri_ok vtx_ok qual).

Definition succeeded (r : option tri) : bool := match r with Some _ => true | None => false end.

(* Triangulation.h:157-177 advance_front_triangle;
   a null or dangling pointer is undefined behaviour *)
Definition advance_front_triangle (st : mstate) (cur : option nat) (wide : bool) : outcome (mstate * bool) :=
  match cur with
  | None => UB
  | Some k =>
    match find_edge k (ms_front st) with
    | None => UB
    | Some e => obind (fstep st (FUpdate k (newpos st e) (query st e wide)))
                      (fun x => Ok (fst x, succeeded (snd x)))
    end
  end.

(* mesh, front_.base_, base_edge, iteration, wide_search, n_generated_ *)
Record lstate := LS { l_st : mstate; l_base : option nat; l_cur : option nat;
                      l_iter : nat; l_wide : bool; l_gen : nat }.

Definition reached (n : Z) (gen : nat) : bool := Z.ltb 0 n && Z.eqb (Z.of_nat gen) n.

(* Triangulation.h:211-240: the tests at the end of an iteration *)
Definition adv_check (n : Z) (s : lstate) : lstate * option bool :=
  let size := length (ms_front (l_st s)) in
  let s1 := if Nat.eqb (l_iter s) size && negb (l_wide s)
            then LS (l_st s) (l_base s) (l_cur s) 0 true (l_gen s) else s in
  (s1, if Nat.eqb size 0 then Some true
       else if reached n (l_gen s) then Some true
       else if Nat.eqb (l_iter s1) size && l_wide s1 then Some false
       else None).

(* Triangulation.h:187-241: one iteration; Some result: return *)
Definition adv_iter (n : Z) (s : lstate) : outcome (lstate * option bool) :=
  obind (advance_front_triangle (l_st s) (l_cur s) (l_wide s)) (fun x =>
  let (st1, ok) := x : mstate * bool in
  if ok then
    let st2 := if l_wide s then sort_edges st1 false else st1 in
    let b := set_base_first (ms_front st2) in
    Ok (adv_check n (LS st2 b b 0 false (S (l_gen s))))
  else
    match l_base s with
    | None => UB
    | Some bk =>
      obind (set_base_next (ms_front st1) bk) (fun b =>
      Ok (adv_check n (LS st1 b b (S (l_iter s)) (l_wide s) (l_gen s))))
    end).

(* Triangulation.h:182-243; None: the fuel did not suffice *)
Fixpoint adv_loop (fuel : nat) (n : Z) (s : lstate) : option (outcome (lstate * bool)) :=
  match fuel with
  | O => None
  | S f => match adv_iter n s with
           | Ok (s', Some r) => Some (Ok (s', r))
           | Ok (s', None) => adv_loop f n s'
           | UB => Some UB
           | Throw => Some Throw
           end
  end.

(* Triangulation.h:300-320 exhaustive_search_triangle; [i] = steps left *)
Fixpoint exh_walk (i : nat) (st : mstate) (base : bedge) (next : option bedge) : outcome (mstate * bool) :=
  match i with
  | O => Ok (st, false)
  | S i' =>
    match next with
    | None => Ok (st, false)
    | Some f =>
      if Nat.eqb (be_id f) (be_id base) then Ok (st, false) else
      let v := be_v2 f in
      if negb (Nat.eqb v (be_v1 base)) && negb (Nat.eqb v (be_v2 base)) then
        match fstep st (FExhaust (be_id base) v) with
        | Ok (st', Some _) => Ok (st', true)
        | Ok (st', None) => exh_walk i' st' base (get_next_edge (ms_front st') f)
        | UB => UB
        | Throw => Throw
        end
      else exh_walk i' st base (get_next_edge (ms_front st) f)
    end
  end.
Definition exhaustive_search_triangle (st : mstate) (cur : option nat) : outcome (mstate * bool) :=
  match cur with
  | None => UB
  | Some k =>
    match find_edge k (ms_front st) with
    | None => UB
    | Some e => exh_walk (length (ms_front st)) st e (get_next_edge (ms_front st) e)
    end
  end.

(* Triangulation.h:263-293 *)
Definition exh_check (n : Z) (s : lstate) : option bool :=
  let size := length (ms_front (l_st s)) in
  match l_cur s with
  | Some _ =>
    if Nat.eqb (l_iter s) size then Some false
    else if Nat.eqb size 0 then Some true
    else if reached n (l_gen s) then Some true
    else None
  | None => Some true     (* 279-280, or the end of the while loop *)
  end.
Definition exh_iter (n : Z) (s : lstate) : outcome (lstate * option bool) :=
  obind (exhaustive_search_triangle (l_st s) (l_cur s)) (fun x =>
  let (st1, ok) := x : mstate * bool in
  if ok then
    let b := set_base_first (ms_front st1) in
    let s' := LS st1 b b 0 false (S (l_gen s)) in Ok (s', exh_check n s')
  else
    match l_base s with
    | None => UB
    | Some bk =>
      obind (set_base_next (ms_front st1) bk) (fun b =>
      let s' := LS st1 b b (S (l_iter s)) false (l_gen s) in Ok (s', exh_check n s'))
    end).
Fixpoint exh_loop (fuel : nat) (n : Z) (s : lstate) : option (outcome (lstate * bool)) :=
  match fuel with
  | O => None
  | S f => match exh_iter n s with
           | Ok (s', Some r) => Some (Ok (s', r))
           | Ok (s', None) => exh_loop f n s'
           | UB => Some UB
           | Throw => Some Throw
           end
  end.
(* Triangulation.h:250-262 *)
Definition exhaustive (fuel : nat) (n : Z) (st : mstate) : option (outcome (lstate * bool)) :=
  let st1 := sort_edges st true in
  let b := set_base_first (ms_front st1) in
  match b with
  | None => Some (Ok (LS st1 b b 0 false 0, true))
  | Some _ => exh_loop fuel n (LS st1 b b 0 false 0)
  end.

(* Triangulation.h:73-94 generate_elements from the initialised front on
   (MeshingStrategy.h:62-73: the base edge is the first edge before sorting),
   without the later clean up; [n] = n_elements_.  Result: mesh with remaining
   front, result, number of generated elements. *)
Definition generate (fuel : nat) (n : Z) (st : mstate) : option (outcome (mstate * bool * nat)) :=
  let b0 := set_base_first (ms_front st) in
  let st1 := sort_edges st false in
  let b1 := set_base_first (ms_front st1) in
  match adv_loop fuel (to_int n) (LS st1 b1 b0 0 false 0) with
  | Some (Ok (s, true)) => Some (Ok (l_st s, true, l_gen s))
  | Some (Ok (s, false)) =>
    match exhaustive fuel (Z.max 0 (to_int (n - Z.of_nat (l_gen s)))) (l_st s) with
    | Some (Ok (s', r)) => Some (Ok (l_st s', r, (l_gen s + l_gen s')%nat))
    | Some UB => Some UB
    | Some Throw => Some Throw
    | None => None
    end
  | Some UB => Some UB
  | Some Throw => Some Throw
  | None => None
  end.
End Loops.
