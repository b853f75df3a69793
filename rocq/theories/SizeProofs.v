From Coq Require Import Reals List Bool Lra Psatz Permutation.
From Verif Require Import SizeModel.
Import ListNotations.
Open Scope R_scope.

Lemma RMIN_spec a b : RMIN a b <= a /\ RMIN a b <= b /\ (RMIN a b = a \/ RMIN a b = b).
Proof. unfold RMIN. destruct (Rlt_dec a b); repeat split; auto; lra. Qed.
Lemma RMIN_glb m a b : m <= a -> m <= b -> m <= RMIN a b.
Proof. unfold RMIN. destruct (Rlt_dec a b); auto. Qed.
Lemma nonpos_false x : nonpos x = false -> 0 < x.
Proof. unfold nonpos. destruct (Rle_dec x 0); [discriminate|lra]. Qed.
Lemma nonpos_true x : nonpos x = true -> x <= 0.
Proof. unfold nonpos. destruct (Rle_dec x 0); [auto|discriminate]. Qed.
Lemma nonpos_pos x : 0 < x -> nonpos x = false.
Proof. unfold nonpos. destruct (Rle_dec x 0); [lra|auto]. Qed.

Lemma exp_le_1 d s : 0 <= d -> 0 < exp (- d * s * s) <= 1.
Proof.
  intros H. split; [apply exp_pos|]. rewrite <- exp_0.
  destruct (Req_dec (d * s * s) 0) as [E|E].
  - right. f_equal. lra.
  - left. apply exp_increasing. assert (0 <= d * s * s) by (rewrite Rmult_assoc; apply Rmult_le_pos; nra). lra.
Qed.
Lemma norm_sqr_pos a b : 0 <= norm_sqr a b.
Proof. unfold norm_sqr. apply Rplus_le_le_0_compat; apply Rle_0_sqr. Qed.
Lemma norm_sqr_same a : norm_sqr a a = 0.
Proof. unfold norm_sqr. ring. Qed.

(* convex combination *)
Lemma blend z a b m : 0 < z <= 1 -> m <= a -> m <= b -> m <= z * a + (1 - z) * b.
Proof. intros [Z1 Z2] A B. assert (z * m <= z * a) by nra. assert ((1 - z) * m <= (1 - z) * b) by nra. lra. Qed.
Lemma blend_pos z a b : 0 < z <= 1 -> 0 < a -> 0 < b -> 0 < z * a + (1 - z) * b.
Proof. intros [Z1 Z2] A B. assert (0 < z * a) by nra. assert (0 <= (1 - z) * b) by nra. lra. Qed.

Lemma end_size_lower xy h_fun el v m : m <= h_fun -> m <= el -> (0 < rv_size v -> m <= rv_size v) ->
  m <= end_size xy h_fun el v.
Proof.
  intros A B C. unfold end_size. cbv zeta.
  apply blend; [apply exp_le_1, norm_sqr_pos| |exact A].
  apply RMIN_glb; [|exact B]. destruct (nonpos (rv_size v)) eqn:E; [exact A|]. apply C, nonpos_false, E.
Qed.
Lemma end_size_pos xy h_fun el v : 0 < h_fun -> 0 < el -> 0 < end_size xy h_fun el v.
Proof.
  intros A B. unfold end_size. cbv zeta. apply blend_pos; [apply exp_le_1, norm_sqr_pos| |exact A].
  set (q := if nonpos (rv_size v) then h_fun else rv_size v).
  assert (0 < q). { unfold q. destruct (nonpos (rv_size v)) eqn:E; [exact A|]. apply nonpos_false, E. }
  destruct (RMIN_spec q el) as (_ & _ & [->| ->]); auto.
Qed.
(* on the vertex itself z = 1 *)
Lemma end_size_at h_fun el v : end_size (rv_xy v) h_fun el v = RMIN (if nonpos (rv_size v) then h_fun else rv_size v) el.
Proof.
  unfold end_size. cbv zeta. rewrite norm_sqr_same.
  match goal with |- context [exp ?x] => replace x with 0 by ring end. rewrite exp_0. ring.
Qed.

Section Folds.
Variables (xy : rvec) (h_fun : R).
Lemma edges_le es : forall h, fold_left (edge_step xy h_fun) es h <= h.
Proof.
  induction es as [|e es IH]; intros h; cbn [fold_left]; [lra|]. eapply Rle_trans; [apply IH|].
  unfold edge_step. cbv zeta.
  destruct (RMIN_spec h (end_size xy h_fun (re_length e) (re_v1 e))) as (A & _).
  destruct (RMIN_spec (RMIN h (end_size xy h_fun (re_length e) (re_v1 e))) (end_size xy h_fun (re_length e) (re_v2 e))) as (B & _). lra.
Qed.
Lemma edges_le_each es : forall h e, In e es ->
  fold_left (edge_step xy h_fun) es h <= end_size xy h_fun (re_length e) (re_v1 e) /\
  fold_left (edge_step xy h_fun) es h <= end_size xy h_fun (re_length e) (re_v2 e).
Proof.
  induction es as [|d es IH]; intros h e [].
  - subst d. cbn [fold_left]. assert (A := edges_le es (edge_step xy h_fun h e)).
    assert (B : edge_step xy h_fun h e <= end_size xy h_fun (re_length e) (re_v1 e) /\
                edge_step xy h_fun h e <= end_size xy h_fun (re_length e) (re_v2 e)).
    { unfold edge_step. cbv zeta.
      destruct (RMIN_spec h (end_size xy h_fun (re_length e) (re_v1 e))) as (_ & B & _).
      destruct (RMIN_spec (RMIN h (end_size xy h_fun (re_length e) (re_v1 e))) (end_size xy h_fun (re_length e) (re_v2 e))) as (C & D & _). lra. }
    lra.
  - cbn [fold_left]. apply IH. exact H.
Qed.
Lemma edges_glb m es : (forall e, In e es -> m <= end_size xy h_fun (re_length e) (re_v1 e) /\ m <= end_size xy h_fun (re_length e) (re_v2 e)) ->
  forall h, m <= h -> m <= fold_left (edge_step xy h_fun) es h.
Proof.
  induction es as [|e es IH]; intros H h Hh; cbn [fold_left]; [exact Hh|]. apply IH.
  - intros d Hd. apply H. right. exact Hd.
  - unfold edge_step. cbv zeta. destruct (H e (or_introl eq_refl)). apply RMIN_glb; [apply RMIN_glb|]; auto.
Qed.
Lemma fixed_le vs : forall h, fold_left (fixed_step xy h_fun) vs h <= h.
Proof.
  induction vs as [|v vs IH]; intros h; cbn [fold_left]; [lra|]. eapply Rle_trans; [apply IH|].
  unfold fixed_step. destruct (nonpos (rv_size v)); [lra|]. cbv zeta. apply RMIN_spec.
Qed.
Lemma fixed_le_each vs : forall h v, In v vs -> 0 < rv_size v -> xy = rv_xy v -> fold_left (fixed_step xy h_fun) vs h <= rv_size v.
Proof.
  induction vs as [|u vs IH]; intros h v Hv Hs Hx; [destruct Hv|].
  destruct Hv as [->|Hv]; cbn [fold_left]; [|apply IH; auto].
  eapply Rle_trans; [apply fixed_le|]. unfold fixed_step. rewrite (nonpos_pos _ Hs). cbv zeta. subst xy. rewrite norm_sqr_same.
  match goal with |- context [exp ?x] => replace x with 0 by ring end. rewrite exp_0.
  eapply Rle_trans; [apply RMIN_spec|]. lra.
Qed.
Lemma fixed_glb m vs : m <= h_fun -> (forall v, In v vs -> 0 < rv_size v -> m <= rv_size v) ->
  forall h, m <= h -> m <= fold_left (fixed_step xy h_fun) vs h.
Proof.
  intros Hm. induction vs as [|v vs IH]; intros H h Hh; cbn [fold_left]; [exact Hh|]. apply IH.
  - intros u Hu. apply H. right. exact Hu.
  - unfold fixed_step. destruct (nonpos (rv_size v)) eqn:E; [exact Hh|]. cbv zeta.
    apply RMIN_glb; [exact Hh|]. apply blend; [apply exp_le_1, norm_sqr_pos| |exact Hm].
    apply H; [left; reflexivity|apply nonpos_false, E].
Qed.
(* a list has a positive lower bound of finitely many positive numbers *)
Lemma edges_pos es : 0 < h_fun -> (forall e, In e es -> 0 < re_length e) -> forall h, 0 < h -> 0 < fold_left (edge_step xy h_fun) es h.
Proof.
  intros Hf. induction es as [|e es IH]; intros H h Hh; cbn [fold_left]; [exact Hh|]. apply IH.
  - intros d Hd. apply H. right. exact Hd.
  - unfold edge_step. cbv zeta. assert (L := H e (or_introl eq_refl)).
    destruct (RMIN_spec (RMIN h (end_size xy h_fun (re_length e) (re_v1 e))) (end_size xy h_fun (re_length e) (re_v2 e))) as (_ & _ & [->| ->]);
      [destruct (RMIN_spec h (end_size xy h_fun (re_length e) (re_v1 e))) as (_ & _ & [->| ->])|]; auto using end_size_pos.
Qed.
Lemma fixed_pos vs : 0 < h_fun -> forall h, 0 < h -> 0 < fold_left (fixed_step xy h_fun) vs h.
Proof.
  intros Hf. induction vs as [|v vs IH]; intros h Hh; cbn [fold_left]; [exact Hh|]. apply IH.
  unfold fixed_step. destruct (nonpos (rv_size v)) eqn:E; [exact Hh|]. cbv zeta.
  match goal with |- 0 < RMIN ?a ?b => destruct (RMIN_spec a b) as (_ & _ & [->| ->]) end; [exact Hh|].
  apply blend_pos; [apply exp_le_1, norm_sqr_pos|apply nonpos_false, E|exact Hf].
Qed.
End Folds.

Section Eval.
Variables (f : rvec -> R) (edges : list redge) (fixed : list rvertex) (xy : rvec) (h : R).
Hypothesis eval : evaluate f edges fixed xy = Some h.

Lemma eval_inv : 0 < f xy /\ h = fold_left (fixed_step xy (f xy)) fixed (fold_left (edge_step xy (f xy)) edges (f xy)).
Proof.
  unfold evaluate in eval. destruct (nonpos (f xy)) eqn:E; [discriminate|]. injection eval as <-.
  split; [apply nonpos_false, E|reflexivity].
Qed.
Lemma eval_upper : h <= f xy.
Proof. destruct eval_inv as [_ ->]. eapply Rle_trans; [apply fixed_le|apply edges_le]. Qed.
Lemma eval_pos : (forall e, In e edges -> 0 < re_length e) -> 0 < h.
Proof. intros H. destruct eval_inv as [P ->]. apply fixed_pos; [exact P|]. apply edges_pos; auto. Qed.
Lemma eval_at_boundary e v : In e edges -> v = re_v1 e \/ v = re_v2 e -> xy = rv_xy v ->
  h <= re_length e /\ (0 < rv_size v -> h <= rv_size v).
Proof.
  intros He Hv Hx. destruct eval_inv as [P ->].
  assert (A := edges_le_each xy (f xy) edges (f xy) e He).
  assert (B : fold_left (edge_step xy (f xy)) edges (f xy) <= end_size xy (f xy) (re_length e) v)
    by (destruct Hv as [->| ->]; tauto).
  assert (B' : end_size xy (f xy) (re_length e) v = RMIN (if nonpos (rv_size v) then f xy else rv_size v) (re_length e)).
  { assert (G : forall q, end_size xy q (re_length e) v = RMIN (if nonpos (rv_size v) then q else rv_size v) (re_length e))
      by (intros q; rewrite Hx; apply end_size_at). apply G. }
  rewrite B' in B.
  assert (C := fixed_le xy (f xy) fixed (fold_left (edge_step xy (f xy)) edges (f xy))).
  destruct (RMIN_spec (if nonpos (rv_size v) then f xy else rv_size v) (re_length e)) as (D & E & _).
  split; [lra|]. intros S. rewrite (nonpos_pos _ S) in *. lra.
Qed.
Lemma eval_at_fixed v : In v fixed -> 0 < rv_size v -> xy = rv_xy v -> h <= rv_size v.
Proof. intros Hv Hs Hx. destruct eval_inv as [P ->]. apply fixed_le_each; auto. Qed.
Lemma eval_lower m : m <= f xy ->
  (forall e, In e edges -> m <= re_length e) ->
  (forall e, In e edges -> (0 < rv_size (re_v1 e) -> m <= rv_size (re_v1 e)) /\ (0 < rv_size (re_v2 e) -> m <= rv_size (re_v2 e))) ->
  (forall v, In v fixed -> 0 < rv_size v -> m <= rv_size v) -> m <= h.
Proof.
  intros Hf He Hs Hv. destruct eval_inv as [_ ->]. apply fixed_glb; [exact Hf|exact Hv|].
  apply edges_glb; [|exact Hf]. intros e Hin. destruct (Hs e Hin). split; apply end_size_lower; auto.
Qed.
End Eval.

(* the value does not depend on the order of boundaries, edges and vertices:
   it is the least of finitely many contributions *)
Lemma RMIN_Rmin a b : RMIN a b = Rmin a b.
Proof. unfold RMIN, Rmin. destruct (Rlt_dec a b), (Rle_dec a b); lra. Qed.
Lemma fold_perm {A} (step : R -> A -> R) (comm : forall h a b, step (step h a) b = step (step h b) a) l l' :
  Permutation l l' -> forall h, fold_left step l h = fold_left step l' h.
Proof.
  intros P. induction P as [|x l l' _ IH|x y l|l1 l2 l3 _ IH1 _ IH2]; intros h; cbn [fold_left]; auto.
  - rewrite comm. reflexivity.
  - rewrite IH1. apply IH2.
Qed.
Lemma Rmin_comm3 a b c : Rmin (Rmin a b) c = Rmin (Rmin a c) b.
Proof. rewrite <- !Rmin_assoc. f_equal. apply Rmin_comm. Qed.
Lemma eval_perm f es es' vs vs' xy : Permutation es es' -> Permutation vs vs' -> evaluate f es vs xy = evaluate f es' vs' xy.
Proof.
  intros P Q. unfold evaluate. cbv zeta. destruct (nonpos (f xy)); [reflexivity|]. f_equal.
  rewrite (fold_perm (edge_step xy (f xy))) with (l' := es'); [|  |exact P].
  - apply fold_perm; [|exact Q]. intros h a b. unfold fixed_step.
    destruct (nonpos (rv_size a)), (nonpos (rv_size b)); try reflexivity. cbv zeta. rewrite !RMIN_Rmin. apply Rmin_comm3.
  - intros h a b. unfold edge_step. cbv zeta. rewrite !RMIN_Rmin.
    rewrite (Rmin_comm3 _ (end_size xy (f xy) (re_length a) (re_v2 a))).
    rewrite (Rmin_comm3 h). rewrite (Rmin_comm3 _ (end_size xy (f xy) (re_length a) (re_v2 a))).
    rewrite (Rmin_comm3 _ (end_size xy (f xy) (re_length a) (re_v1 a))). reflexivity.
Qed.
