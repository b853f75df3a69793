(* Common vocabulary of all models: outcomes, two-dimensional vectors over Q
   and the boolean comparisons of doubles. *)
From Coq Require Export QArith List Bool Arith ZArith.
From Coq Require Import Lqa Lia.
Export ListNotations.

(* Outcome of a C++ call in a release build.
   [UB]    : undefined behaviour (null dereference, out of range access, ...)
   [Throw] : an exception or TERMINATE (src/utils/Helpers.h, process exit). *)
Inductive outcome (A : Type) : Type :=
| Ok (a : A)
| UB
| Throw.
Arguments Ok {A} _.
Arguments UB {A}.
Arguments Throw {A}.

Definition obind {A B} (x : outcome A) (f : A -> outcome B) : outcome B :=
  match x with Ok a => f a | UB => UB | Throw => Throw end.

(* src/utils/VecND.h: Vec2<double>; double is modelled by exact rationals. *)
Record vec2 := V2 { vx : Q; vy : Q }.

Definition vadd (a b : vec2) : vec2 := V2 (vx a + vx b) (vy a + vy b).
Definition vsub (a b : vec2) : vec2 := V2 (vx a - vx b) (vy a - vy b).
Definition vscale (s : Q) (a : vec2) : vec2 := V2 (s * vx a) (s * vy a).
(* dot() and cross() of VecND.h, norm_sqr() *)
Definition vdot (a b : vec2) : Q := vx a * vx b + vy a * vy b.
Definition vcross (a b : vec2) : Q := vx a * vy b - vy a * vx b.
Definition vnorm2 (a : vec2) : Q := vdot a a.

(* operator== of VecND.h: (a-b).is_zero(), i.e. exact equality of both
   components. *)
Definition veqb (a b : vec2) : bool := Qeq_bool (vx a) (vx b) && Qeq_bool (vy a) (vy b).
Definition veq (a b : vec2) : Prop := vx a == vx b /\ vy a == vy b.

(* comparison operators of double *)
Definition Qleb (a b : Q) : bool := Qle_bool a b.
Definition Qltb (a b : Q) : bool := negb (Qle_bool b a).

Lemma Qleb_true a b : Qleb a b = true <-> (a <= b)%Q.
Proof. apply Qle_bool_iff. Qed.

Lemma Qleb_false a b : Qleb a b = false <-> (b < a)%Q.
Proof.
  unfold Qleb. split; intro H.
  - apply Qnot_le_lt. intro H'. apply Qle_bool_iff in H'. congruence.
  - destruct (Qle_bool a b) eqn:E; [|reflexivity].
    apply Qle_bool_iff in E. exfalso. apply (Qlt_not_le _ _ H E).
Qed.

Lemma Qltb_true a b : Qltb a b = true <-> (a < b)%Q.
Proof. unfold Qltb. rewrite negb_true_iff. apply Qleb_false. Qed.

Lemma Qltb_false a b : Qltb a b = false <-> (b <= a)%Q.
Proof. unfold Qltb. rewrite negb_false_iff. apply Qleb_true. Qed.

Lemma veqb_true a b : veqb a b = true <-> veq a b.
Proof.
  unfold veqb, veq. rewrite andb_true_iff, !Qeq_bool_iff. tauto.
Qed.

(* MIN / MAX macros of src/utils/MathUtility.h over doubles *)
Definition Qminb (a b : Q) : Q := if Qltb a b then a else b.
Definition Qmaxb (a b : Q) : Q := if Qltb b a then a else b.

(* Turns all boolean comparisons of rationals in the context and goal into
   propositions. *)
Ltac qbool :=
  repeat match goal with
  | H : _ && _ = true |- _ => apply andb_true_iff in H; destruct H
  | H : _ || _ = false |- _ => apply orb_false_iff in H; destruct H
  | H : Qleb _ _ = true |- _ => apply Qleb_true in H
  | H : Qleb _ _ = false |- _ => apply Qleb_false in H
  | H : Qltb _ _ = true |- _ => apply Qltb_true in H
  | H : Qltb _ _ = false |- _ => apply Qltb_false in H
  | H : negb _ = true |- _ => apply negb_true_iff in H
  | H : negb _ = false |- _ => apply negb_false_iff in H
  end.

(* lra for rationals with divisions by small constants *)
Ltac qdiv :=
  unfold Qdiv in *;
  change (/ 2) with (1 # 2) in *; change (/ 3) with (1 # 3) in *;
  change (/ 4) with (1 # 4) in *.
Ltac qlra := qdiv; lra.
