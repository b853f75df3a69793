(* Properties C01-C06: the quadtree backed container. *)
From Verif Require Import Base QTreeModel QTreeSpec QTreeProofs QTreeCont QTreeMore.
Open Scope Q_scope.

(* C01, as stated (every legal history of push_back / remove / update): false.
   Updating an item onto the border of its bucket and then again makes it
   invisible to queries. *)
Theorem C01_C02_query_after_update_refuted :
  exists p ops s rs a i xy ll ur c r,
    (0 < cp_items p)%Z /\ 0 < cp_scale p /\ legal_hist p c_init ops /\
    c_run p c_init ops = Ok (s, rs) /\ aruns (cp_scale p) a_init ops a rs /\
    In (AI i xy) (as_items a) /\ in_square (cp_scale p) xy /\
    in_rectangle ll ur xy /\ ~ In i (c_get_rect p s ll ur) /\
    0 <= r /\ in_disc c r xy /\ ~ In i (c_get_circ p s c r).
Proof. exact w_lost_refuted. Qed.

(* C01 for every history in which an item that was tied to a foreign bucket by
   an update is not updated or removed afterwards. *)
Theorem C01_rect_query_partial : forall p ops,
  (0 <= cp_items p)%Z -> safe_hist p c_init [] ops ->
  exists s rs a, c_run p c_init ops = Ok (s, rs) /\ aruns (cp_scale p) a_init ops a rs /\
    forall ll ur, NoDup (c_get_rect p s ll ur) /\
      forall i, In i (c_get_rect p s ll ur) <->
        exists xy, In (AI i xy) (as_items a) /\ in_square (cp_scale p) xy /\ in_rectangle ll ur xy.
Proof. exact rect_hist. Qed.

Theorem C02_circle_query_partial : forall p ops,
  (0 <= cp_items p)%Z -> safe_hist p c_init [] ops ->
  exists s rs a, c_run p c_init ops = Ok (s, rs) /\ aruns (cp_scale p) a_init ops a rs /\
    forall c r, 0 <= r -> NoDup (c_get_circ p s c r) /\
      forall i, In i (c_get_circ p s c r) <->
        exists xy, In (AI i xy) (as_items a) /\ in_square (cp_scale p) xy /\ in_disc c r xy.
Proof. exact circ_hist. Qed.

(* Histories in which no update puts an item exactly on the border of its
   bucket (generic locations) are covered by the two theorems above. *)
Theorem generic_histories_are_safe : forall p ops s,
  0 <= cp_scale p -> generic_hist p s ops -> safe_hist p s [] ops.
Proof. intros p ops s H. apply generic_safe. exact H. Qed.

Example C01_hypotheses_met : (0 <= cp_items wp)%Z /\ safe_hist wp c_init [] ex_ops.
Proof. split; [discriminate|exact ex_safe]. Qed.
Example C01_generic_met : generic_hist wp c_init
  [CPush (V2 1 1); CPush (V2 (-1) 1); CPush (V2 (3#2) (3#2)); CMove 0%nat (V2 1 (-1)); CRemove 2%nat].
Proof. exact ex_generic. Qed.
Example C01_split_tree : q_split (cs_tree (state_of (c_run wp c_init ex_ops))) = true.
Proof. vm_compute. reflexivity. Qed.

(* C03, as stated: false.  A non-empty container may answer "none". *)
Theorem C03_nearest_refuted : exists p ops s rs q,
  (0 < cp_items p)%Z /\ 0 < cp_scale p /\ legal_hist p c_init ops /\
  c_run p c_init ops = Ok (s, rs) /\ c_size s <> 0%nat /\ in_square (cp_scale p) q /\
  forall sq, sqrt_ok sq -> c_get_nearest p sq s q = Ok None.
Proof. exact wn_refuted. Qed.

(* C03: an answer is a nearest item; no answer is given exactly if every item
   is at least two bucket widths away from the query point. *)
Theorem C03_nearest_partial : forall p ops sq q,
  (0 <= cp_items p)%Z -> sqrt_ok sq -> safe_hist p c_init [] ops ->
  in_square (cp_scale p) q ->
  exists s rs a gl tl r, c_run p c_init ops = Ok (s, rs) /\
    aruns (cp_scale p) a_init ops a rs /\
    qleaf (cp_root p) (cs_tree s) q = Some (gl, tl) /\
    c_get_nearest p sq s q = Ok r /\
    match r with
    | Some i => exists xy, In (AI i xy) (as_items a) /\
        (forall j xyj, In (AI j xyj) (as_items a) -> in_square (cp_scale p) xyj ->
           dist2 xy q <= dist2 xyj q) /\
        dist2 xy q < 4 * g_scale gl * g_scale gl
    | None => forall j xyj, In (AI j xyj) (as_items a) -> in_square (cp_scale p) xyj ->
        4 * g_scale gl * g_scale gl <= dist2 xyj q
    end.
Proof. exact near_hist. Qed.

Example C03_sqrt_exists : sqrt_ok sq_up.
Proof. exact sq_up_ok. Qed.
Example C03_answer :
  c_get_nearest wp sq_up (state_of (c_run wp c_init ex_ops)) (V2 (1#2) (-1#2)) = Ok (Some 0%nat).
Proof. vm_compute. reflexivity. Qed.

(* C04 *)
Theorem C04_size_is_pushes_minus_removes : forall p ops s rs,
  c_run p c_init ops = Ok (s, rs) -> Z.of_nat (c_size s) = balance ops rs.
Proof. intros p ops s rs H. rewrite (run_size p ops _ _ _ fresh_init H). reflexivity. Qed.

Theorem C04_tree_balance_partial : forall p ops,
  (0 <= cp_items p)%Z -> safe_hist p c_init [] ops ->
  exists s rs a, c_run p c_init ops = Ok (s, rs) /\ aruns (cp_scale p) a_init ops a rs /\
    c_size s = length (as_items a) /\
    q_n (cs_tree s) = Z.of_nat (length (q_ids (cs_tree s))) /\
    (forall i, In i (q_ids (cs_tree s)) <->
       exists xy, In (AI i xy) (as_items a) /\ in_square (cp_scale p) xy) /\
    (forall d l, In (d, l) (leaves 0 (cs_tree s)) ->
       (d <= cp_depth p)%nat /\ ((d < cp_depth p)%nat -> (Z.of_nat (length l) <= cp_items p)%Z)) /\
    (forall u, In u (nodes (cs_tree s)) ->
       (cp_items p < Z.of_nat (length (q_ids u)))%Z /\ q_n u = Z.of_nat (length (q_ids u))).
Proof. exact balance_hist. Qed.

(* C04/C05, as stated: false.  After update (true) and remove (true) the item
   is still returned by queries and the quadtree's size is wrong. *)
Theorem C04_C05_remove_after_update_refuted :
  exists p ops i xy s0 rs0 s rs ll ur,
    (0 < cp_items p)%Z /\ 0 < cp_scale p /\ legal_hist p c_init (ops ++ [CMove i xy; CRemove i]) /\
    in_square (cp_scale p) xy /\
    c_run p c_init (ops ++ [CMove i xy]) = Ok (s0, rs0 ++ [RBool true]) /\
    c_step p s0 (CRemove i) = Ok (s, RBool true) /\
    c_run p c_init (ops ++ [CMove i xy; CRemove i]) = Ok (s, rs) /\
    ~ In i (cs_items s) /\ In i (c_get_rect p s ll ur) /\
    q_n (cs_tree s) <> Z.of_nat (length (q_ids (cs_tree s))).
Proof. exact w_ghost_refuted. Qed.

(* C05 for items that were not tied before; the removal part additionally
   needs that this update does not tie the item. *)
Theorem C05_update_partial : forall p ops i xy,
  (0 <= cp_items p)%Z -> safe_hist p c_init [] (ops ++ [CMove i xy]) ->
  in_square (cp_scale p) xy ->
  exists s rs s', c_run p c_init ops = Ok (s, rs) /\
    c_step p s (CMove i xy) = Ok (s', RBool true) /\
    (forall ll ur, In i (c_get_rect p s' ll ur) <-> in_rectangle ll ur xy) /\
    (forall ll ur j, j <> i -> (In j (c_get_rect p s' ll ur) <-> In j (c_get_rect p s ll ur))) /\
    (forall c r, 0 <= r -> In i (c_get_circ p s' c r) <-> in_disc c r xy) /\
    (forall c r j, 0 <= r -> j <> i -> (In j (c_get_circ p s' c r) <-> In j (c_get_circ p s c r))) /\
    (makes_tie p s i xy = false ->
     exists s'', c_step p s' (CRemove i) = Ok (s'', RBool true) /\
       ~ In i (cs_items s'') /\
       (forall ll ur, ~ In i (c_get_rect p s'' ll ur)) /\
       (forall c r, ~ In i (c_get_circ p s'' c r)) /\
       (forall sq q, c_get_nearest p sq s'' q <> Ok (Some i))).
Proof. exact update_hist. Qed.

Example C05_met : safe_hist wp c_init [] (w_push ++ [CMove 1%nat (V2 1 (-1))]) /\
  in_square (cp_scale wp) (V2 1 (-1)) /\
  makes_tie wp (state_of (c_run wp c_init w_push)) 1%nat (V2 1 (-1)) = false.
Proof.
  split; [vm_compute; repeat split; try tauto; intros []|].
  split; [unfold in_square; cbn; repeat split; discriminate|].
  vm_compute. reflexivity.
Qed.

(* C06: for every history, also with tied items *)
Theorem C06_outside_items : forall p ops s rs k xy s1 r1 ops2 s2 rs2,
  c_run p c_init ops = Ok (s, rs) -> ~ in_square (cp_scale p) xy ->
  c_step p s (CInsert k xy) = Ok (s1, r1) -> c_run p s1 ops2 = Ok (s2, rs2) ->
  let i := cs_next s in
  r1 = RItem i /\ cs_tree s1 = cs_tree s /\
  In i (cs_items s2) /\ cs_pos s2 i = xy /\
  (forall ll ur, ~ In i (c_get_rect p s2 ll ur)) /\
  (forall c r, ~ In i (c_get_circ p s2 c r)) /\
  (forall sq q, c_get_nearest p sq s2 q <> Ok (Some i)) /\
  c_step p s2 (CRemove i) = Ok (s2, RBool false).
Proof. exact outside_forever. Qed.

Example C06_met :
  let ok (o : outcome (cstate * list cret)) := match o with Ok _ => true | _ => false end in
  ok (c_run wp c_init w_push) = true /\
  ok (c_run wp c_init (w_push ++ [CInsert 1 (V2 9 9); CRemove 0%nat; CRemove 2%nat; CPush (V2 1 1)])) = true.
Proof. cbn zeta. split; vm_compute; reflexivity. Qed.

(* Further finding: a user supplied query function is ignored by get_items on
   a tree that is split (QuadTree.h:251). *)
Theorem custom_query_ignored_refuted : exists p ops s rs ll ur i,
  c_run p c_init ops = Ok (s, rs) /\
  In i (q_rect_with (cs_pos s) (fun _ => false) (cp_root p) (cs_tree s) ll ur).
Proof.
  exists wp, w_push, (state_of (c_run wp c_init w_push)), [RItem 0%nat; RItem 1%nat],
    (V2 (-2) (-2)), (V2 2 2), 1%nat.
  split; [vm_compute; reflexivity|]. pose proof w_custom as H. cbn zeta in H.
  rewrite H. right. left. reflexivity.
Qed.

Print Assumptions C01_rect_query_partial.
Print Assumptions C02_circle_query_partial.
Print Assumptions C01_C02_query_after_update_refuted.
Print Assumptions generic_histories_are_safe.
Print Assumptions C03_nearest_refuted.
Print Assumptions C03_nearest_partial.
Print Assumptions C04_size_is_pushes_minus_removes.
Print Assumptions C04_tree_balance_partial.
Print Assumptions C04_C05_remove_after_update_refuted.
Print Assumptions C05_update_partial.
Print Assumptions C06_outside_items.
Print Assumptions custom_query_ignored_refuted.
