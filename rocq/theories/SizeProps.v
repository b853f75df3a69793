(* Property C19: bounds of the size function.  Uses the real numbers of the
   standard library. *)
From Coq Require Import Reals List Lra Permutation.
From Verif Require Import SizeModel SizeProofs.
Import ListNotations.
Open Scope R_scope.

Theorem C19_positive f edges fixed xy h : evaluate f edges fixed xy = Some h ->
  (forall e, In e edges -> 0 < re_length e) -> 0 < h.
Proof. exact (eval_pos f edges fixed xy h). Qed.
Theorem C19_not_above_user_size f edges fixed xy h : evaluate f edges fixed xy = Some h -> h <= f xy.
Proof. exact (eval_upper f edges fixed xy h). Qed.
Theorem C19_at_boundary_vertex f edges fixed xy h e v : evaluate f edges fixed xy = Some h ->
  In e edges -> v = re_v1 e \/ v = re_v2 e -> xy = rv_xy v ->
  h <= re_length e /\ (0 < rv_size v -> h <= rv_size v).
Proof. exact (fun E => eval_at_boundary f edges fixed xy h E e v). Qed.
Theorem C19_at_fixed_vertex f edges fixed xy h v : evaluate f edges fixed xy = Some h ->
  In v fixed -> 0 < rv_size v -> xy = rv_xy v -> h <= rv_size v.
Proof. exact (fun E => eval_at_fixed f edges fixed xy h E v). Qed.
(* m is any common lower bound *)
Theorem C19_not_below_all f edges fixed xy h m : evaluate f edges fixed xy = Some h -> m <= f xy ->
  (forall e, In e edges -> m <= re_length e) ->
  (forall e, In e edges -> (0 < rv_size (re_v1 e) -> m <= rv_size (re_v1 e)) /\ (0 < rv_size (re_v2 e) -> m <= rv_size (re_v2 e))) ->
  (forall v, In v fixed -> 0 < rv_size v -> m <= rv_size v) -> m <= h.
Proof. exact (fun E => eval_lower f edges fixed xy h E m). Qed.
(* terminates exactly on a non-positive user size *)
Theorem C19_user_size_checked f edges fixed xy : evaluate f edges fixed xy = None <-> f xy <= 0.
Proof.
  unfold evaluate. cbv zeta. split.
  - destruct (nonpos (f xy)) eqn:E; [intros _; exact (nonpos_true _ E)|discriminate].
  - intros H. destruct (nonpos (f xy)) eqn:E; [reflexivity|]. apply nonpos_false in E. lra.
Qed.
(* order of boundaries, edges and vertices plays no role *)
Theorem C19_order_irrelevant f es es' vs vs' xy : Permutation es es' -> Permutation vs vs' ->
  evaluate f es vs xy = evaluate f es' vs' xy.
Proof. exact (eval_perm f es es' vs vs' xy). Qed.

Example C19_nonvacuous : let a := RV (0, 0) (1/2) 3 in let b := RV (4, 0) 0 0 in let c := RV (0, 3) (1/4) 0 in
  let es := [RE a b; RE b c; RE c a] in
  (exists h, evaluate (fun _ => 1) es [RV (1, 1) (1/8) 0] (0, 0) = Some h) /\
  (forall e, In e es -> 0 < re_length e) /\ 0 < rv_size a.
Proof.
  cbv zeta. split; [|split; [|cbn; lra]].
  - unfold evaluate. cbv zeta. destruct (nonpos 1) eqn:E; [apply nonpos_true in E; lra|]. eexists; reflexivity.
  - intros e [<-|[<-|[<-|[]]]]; unfold re_length, norm_sqr; cbn [re_v1 re_v2 rv_xy fst snd]; apply sqrt_lt_R0; lra.
Qed.

Print Assumptions C19_positive.
Print Assumptions C19_not_above_user_size.
Print Assumptions C19_at_boundary_vertex.
Print Assumptions C19_at_fixed_vertex.
Print Assumptions C19_not_below_all.
Print Assumptions C19_user_size_checked.
Print Assumptions C19_order_irrelevant.
