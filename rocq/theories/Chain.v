(* Sums of edge weights along open and closed chains.  Used for polygon areas,
   the conservation laws of the advancing front and the mesh modifications. *)
From Coq Require Import Lqa Lia.
From Verif Require Import Base.
Open Scope Q_scope.

Section Chain.
Context {V : Type}.
Variable w : V -> V -> Q.

Definition antisym : Prop := forall a b, w b a == - w a b.

Fixpoint path_w (a : V) (l : list V) : Q :=
  match l with [] => 0 | b :: l' => w a b + path_w b l' end.

(* closed chain through the listed points *)
Definition loop_w (l : list V) : Q :=
  match l with [] => 0 | a :: l' => path_w a (l' ++ [a]) end.

Lemma path_app a l b l' : path_w a (l ++ b :: l') == path_w a (l ++ [b]) + path_w b l'.
Proof.
  revert a. induction l as [|c l IH]; intros a; cbn [path_w app].
  - ring.
  - rewrite IH. ring.
Qed.

Lemma loop_rot a l : loop_w (l ++ [a]) == loop_w (a :: l).
Proof.
  destruct l as [|b l]; [reflexivity|]. cbn [loop_w app].
  rewrite <- app_assoc. cbn [app]. rewrite path_app. cbn [path_w]. ring.
Qed.

Lemma loop_rot_app l1 l2 : loop_w (l1 ++ l2) == loop_w (l2 ++ l1).
Proof.
  revert l2. induction l1 as [|a l1 IH]; intros l2; [rewrite app_nil_r; reflexivity|].
  cbn [app]. rewrite <- loop_rot, <- app_assoc, IH, <- app_assoc. reflexivity.
Qed.

Lemma loop_cut a l1 b l2 : antisym ->
  loop_w (a :: l1 ++ b :: l2) == loop_w (a :: l1 ++ [b]) + loop_w (b :: l2 ++ [a]).
Proof.
  intros H. cbn [loop_w]. rewrite <- !app_assoc. cbn [app].
  rewrite (path_app a l1 b (l2 ++ [a])), (path_app a l1 b [a]), (path_app b l2 a [b]).
  cbn [path_w]. rewrite (H a b). ring.
Qed.

Lemma path_rev a l b : antisym -> path_w b (rev l ++ [a]) == - path_w a (l ++ [b]).
Proof.
  intros H. revert a b. induction l as [|c l IH]; intros a b.
  - cbn [rev app path_w]. rewrite (H a b). ring.
  - cbn [rev]. rewrite <- app_assoc. cbn [app].
    rewrite path_app, IH. cbn [path_w app]. rewrite (H a c). ring.
Qed.

Lemma loop_rev l : antisym -> loop_w (rev l) == - loop_w l.
Proof.
  intros H. destruct l as [|a l]; [cbn; ring|]. cbn [rev].
  rewrite loop_rot. cbn [loop_w]. apply path_rev. exact H.
Qed.

Lemma path_exact f a l b : (forall x y, w x y == f y - f x) -> path_w a (l ++ [b]) == f b - f a.
Proof.
  intros H. revert a. induction l as [|c l IH]; intros a; cbn [path_w app].
  - rewrite H. ring.
  - rewrite IH, H. ring.
Qed.

Lemma loop_exact f l : (forall x y, w x y == f y - f x) -> loop_w l == 0.
Proof.
  intros H. destruct l as [|a l]; [reflexivity|]. cbn [loop_w]. rewrite (path_exact f); [ring|exact H].
Qed.
End Chain.

Lemma path_ext {V} (w w' : V -> V -> Q) a l : (forall x y, w x y == w' x y) -> path_w w a l == path_w w' a l.
Proof.
  intros H. revert a. induction l as [|b l IH]; intros a; cbn [path_w]; [reflexivity|].
  rewrite IH, H. reflexivity.
Qed.
Lemma loop_ext {V} (w w' : V -> V -> Q) l : (forall x y, w x y == w' x y) -> loop_w w l == loop_w w' l.
Proof. intros H. destruct l; [reflexivity|]. apply path_ext. exact H. Qed.

Lemma path_plus {V} (w w' : V -> V -> Q) a l :
  path_w (fun x y => w x y + w' x y) a l == path_w w a l + path_w w' a l.
Proof. revert a. induction l as [|b l IH]; intros a; cbn [path_w]; [ring|]. rewrite IH. ring. Qed.
Lemma loop_plus {V} (w w' : V -> V -> Q) l :
  loop_w (fun x y => w x y + w' x y) l == loop_w w l + loop_w w' l.
Proof. destruct l; [cbn; ring|]. apply path_plus. Qed.

Lemma path_map {U V} (g : U -> V) (w : V -> V -> Q) a l :
  path_w w (g a) (map g l) = path_w (fun x y => w (g x) (g y)) a l.
Proof. revert a. induction l as [|b l IH]; intros a; cbn [path_w map]; [reflexivity|]. rewrite IH. reflexivity. Qed.
Lemma loop_map {U V} (g : U -> V) (w : V -> V -> Q) l :
  loop_w w (map g l) = loop_w (fun x y => w (g x) (g y)) l.
Proof.
  destruct l as [|a l]; [reflexivity|]. cbn [map loop_w].
  change (map g l ++ [g a]) with (map g l ++ map g [a]). rewrite <- map_app. apply path_map.
Qed.

(* the indexed form used by loops over i with successor (i+1) mod n *)
Fixpoint sumQ (l : list Q) : Q := match l with [] => 0 | x :: l' => x + sumQ l' end.

Lemma fold_sumQ {A} (f : A -> Q) l x :
  fold_left (fun acc i => acc + f i) l x == x + sumQ (map f l).
Proof.
  revert x. induction l as [|a l IH]; intros x; cbn [fold_left map sumQ]; [ring|]. rewrite IH. ring.
Qed.

Lemma sumQ_app l l' : sumQ (l ++ l') == sumQ l + sumQ l'.
Proof. induction l as [|a l IH]; cbn [sumQ app]; [ring|]. rewrite IH. ring. Qed.

Lemma sumQ_ext {A} (f g : A -> Q) l : (forall x, In x l -> f x == g x) ->
  sumQ (map f l) == sumQ (map g l).
Proof.
  induction l as [|a l IH]; intros H; cbn [map sumQ]; [reflexivity|].
  rewrite IH; [|intros; apply H; right; assumption]. rewrite (H a); [reflexivity|left; reflexivity].
Qed.

Lemma path_indexed {V} (w : V -> V -> Q) d a l :
  sumQ (map (fun i => w (nth i (a :: l) d) (nth (S i) (a :: l) d)) (seq 0 (length l))) == path_w w a l.
Proof.
  revert a. induction l as [|b l IH]; intros a; [reflexivity|].
  cbn [length seq map sumQ path_w]. rewrite <- seq_shift, map_map.
  change (nth 0 (a :: b :: l) d) with a. change (nth 1 (a :: b :: l) d) with b.
  rewrite <- (IH b). apply Qplus_comp; [reflexivity|].
  apply sumQ_ext. intros i _. reflexivity.
Qed.

Lemma loop_indexed {V} (w : V -> V -> Q) d l :
  fold_left (fun acc i => acc + w (nth i l d) (nth ((i + 1) mod length l)%nat l d))
    (seq 0 (length l)) 0 == loop_w w l.
Proof.
  rewrite fold_sumQ. destruct l as [|a l]; [reflexivity|]. cbn [loop_w].
  rewrite <- (path_indexed w d a (l ++ [a])).
  assert (E : length (l ++ [a]) = length (a :: l)) by (rewrite app_length; cbn; lia).
  rewrite E, Qplus_0_l. apply sumQ_ext. intros i Hi. apply in_seq in Hi.
  assert (E1 : nth i (a :: l ++ [a]) d = nth i (a :: l) d).
  { change (a :: l ++ [a]) with ((a :: l) ++ [a]). apply app_nth1. lia. }
  assert (E2 : nth (S i) (a :: l ++ [a]) d = nth ((i + 1) mod length (a :: l)) (a :: l) d).
  { destruct (Nat.eq_dec (S i) (length (a :: l))) as [H|H].
    - replace (i + 1)%nat with (length (a :: l)) by lia.
      rewrite Nat.mod_same by (cbn; lia).
      change (a :: l ++ [a]) with ((a :: l) ++ [a]). rewrite H, app_nth2, Nat.sub_diag by lia. reflexivity.
    - rewrite Nat.mod_small by lia. replace (i + 1)%nat with (S i) by lia.
      change (a :: l ++ [a]) with ((a :: l) ++ [a]). apply app_nth1. lia. }
  rewrite E1, E2. reflexivity.
Qed.

(* ------------------------------------------------------------------ *)
(* Weight sums over lists of directed edges, in any order. *)
From Coq Require Import Permutation.

Section ESum.
Context {V : Type}.

Fixpoint esum (w : V -> V -> Q) (es : list (V * V)) : Q :=
  match es with [] => 0 | (a, b) :: r => w a b + esum w r end.

(* every potential difference adds up to zero: each vertex has as many
   incoming as outgoing edges *)
Definition balanced (es : list (V * V)) : Prop :=
  forall f : V -> Q, esum (fun a b => f b - f a) es == 0.

Lemma esum_app w l l' : esum w (l ++ l') == esum w l + esum w l'.
Proof. induction l as [|[a b] l IH]; cbn [esum app]; [ring|]. rewrite IH. ring. Qed.

Lemma esum_perm w l l' : Permutation l l' -> esum w l == esum w l'.
Proof.
  induction 1 as [|[a b] l l' _ IH|[a b] [c d] l|l1 l2 l3 _ IH1 _ IH2]; cbn [esum].
  - reflexivity.
  - rewrite IH. reflexivity.
  - ring.
  - rewrite IH1. exact IH2.
Qed.

Lemma esum_ext w w' l : (forall a b, In (a, b) l -> w a b == w' a b) -> esum w l == esum w' l.
Proof.
  induction l as [|[a b] l IH]; intros H; cbn [esum]; [reflexivity|].
  rewrite (H a b) by (left; reflexivity). rewrite IH; [reflexivity|].
  intros. apply H. right. assumption.
Qed.

Lemma esum_plus w w' l : esum (fun a b => w a b + w' a b) l == esum w l + esum w' l.
Proof. induction l as [|[a b] l IH]; cbn [esum]; [ring|]. rewrite IH. ring. Qed.

Lemma esum_scale c w l : esum (fun a b => c * w a b) l == c * esum w l.
Proof. induction l as [|[a b] l IH]; cbn [esum]; [ring|]. rewrite IH. ring. Qed.

Definition swap_edge (e : V * V) : V * V := (snd e, fst e).

Lemma esum_swap w l : antisym w -> esum w (map swap_edge l) == - esum w l.
Proof.
  intros H. induction l as [|[a b] l IH]; cbn [esum map swap_edge fst snd]; [ring|].
  rewrite IH, (H a b). ring.
Qed.

Lemma balanced_swap l : balanced l -> balanced (map swap_edge l).
Proof.
  intros H f. rewrite esum_swap; [|intros a b; ring]. rewrite (H f). ring.
Qed.

Lemma balanced_perm l l' : Permutation l l' -> balanced l -> balanced l'.
Proof. intros P H f. rewrite <- (esum_perm _ _ _ P). apply H. Qed.

Lemma balanced_app l l' : balanced l -> balanced l' -> balanced (l ++ l').
Proof. intros H H' f. rewrite esum_app, (H f), (H' f). ring. Qed.

(* the edges of the closed ring through the listed vertices *)
Fixpoint path_edges (a : V) (l : list V) : list (V * V) :=
  match l with [] => [] | b :: l' => (a, b) :: path_edges b l' end.
Definition ring_edges (l : list V) : list (V * V) :=
  match l with [] => [] | a :: l' => path_edges a (l' ++ [a]) end.

Lemma esum_path w a l : esum w (path_edges a l) = path_w w a l.
Proof. revert a. induction l as [|b l IH]; intros a; cbn; [reflexivity|]. rewrite IH. reflexivity. Qed.
Lemma esum_ring w l : esum w (ring_edges l) = loop_w w l.
Proof. destruct l; [reflexivity|]. apply esum_path. Qed.
Lemma ring_balanced l : balanced (ring_edges l).
Proof. intros f. rewrite esum_ring. apply loop_exact with (f := f). intros. reflexivity. Qed.
Lemma path_edges_length a l : length (path_edges a l) = length l.
Proof. revert a. induction l as [|b l IH]; intros a; cbn; [reflexivity|]. rewrite IH. reflexivity. Qed.
Lemma ring_edges_length l : length (ring_edges l) = length l.
Proof. destruct l; [reflexivity|]. cbn [ring_edges]. rewrite path_edges_length, app_length. cbn. lia. Qed.

Lemma ring_edges_indexed d l :
  map (fun i => (nth i l d, nth ((i + 1) mod length l) l d)) (seq 0 (length l)) = ring_edges l.
Proof.
  assert (P : forall a l0, map (fun i => (nth i (a :: l0) d, nth (S i) (a :: l0) d)) (seq 0 (length l0)) = path_edges a l0).
  { intros a l0. revert a. induction l0 as [|b l0 IH]; intros a; [reflexivity|].
    cbn [length seq map path_edges]. f_equal. rewrite <- seq_shift, map_map. rewrite <- (IH b).
    apply map_ext. intros i. reflexivity. }
  destruct l as [|a l]; [reflexivity|]. cbn [ring_edges]. rewrite <- P.
  assert (E : length (l ++ [a]) = length (a :: l)) by (rewrite app_length; cbn; lia).
  rewrite E. apply map_ext_in. intros i Hi. apply in_seq in Hi. f_equal.
  - change (a :: l ++ [a]) with ((a :: l) ++ [a]). rewrite app_nth1 by lia. reflexivity.
  - destruct (Nat.eq_dec (S i) (length (a :: l))) as [H|H].
    + replace (i + 1)%nat with (length (a :: l)) by lia.
      rewrite Nat.mod_same by (cbn; lia).
      change (a :: l ++ [a]) with ((a :: l) ++ [a]). rewrite H, app_nth2, Nat.sub_diag by lia. reflexivity.
    + rewrite Nat.mod_small by lia. replace (i + 1)%nat with (S i) by lia.
      change (a :: l ++ [a]) with ((a :: l) ++ [a]). rewrite app_nth1 by lia. reflexivity.
Qed.
End ESum.

Lemma esum_map {U V} (g : U -> V) (w : V -> V -> Q) es :
  esum w (map (fun e => (g (fst e), g (snd e))) es) = esum (fun a b => w (g a) (g b)) es.
Proof. induction es as [|[a b] l IH]; cbn; [reflexivity|]. rewrite IH. reflexivity. Qed.

(* decidable in/out degrees for natural vertex numbers *)
Definition out_deg (v : nat) (es : list (nat * nat)) : nat := length (filter (fun e => Nat.eqb (fst e) v) es).
Definition in_deg (v : nat) (es : list (nat * nat)) : nat := length (filter (fun e => Nat.eqb (snd e) v) es).

Definition ind (v x : nat) : Q := if Nat.eqb x v then 1 else 0.

Lemma esum_ind v es : esum (fun a b => ind v b - ind v a) es ==
  inject_Z (Z.of_nat (in_deg v es)) - inject_Z (Z.of_nat (out_deg v es)).
Proof.
  unfold in_deg, out_deg, ind. induction es as [|[a b] es IH]; [reflexivity|].
  cbn [esum filter fst snd]. rewrite IH.
  destruct (Nat.eqb a v), (Nat.eqb b v); cbn [length]; rewrite ?Nat2Z.inj_succ; unfold Z.succ;
    rewrite ?inject_Z_plus; ring.
Qed.

(* the weight formulation is the degree formulation *)
Lemma balanced_degrees es : balanced es <-> forall v, in_deg v es = out_deg v es.
Proof.
  split.
  - intros H v. specialize (H (ind v)). rewrite esum_ind in H.
    assert (E : inject_Z (Z.of_nat (in_deg v es)) == inject_Z (Z.of_nat (out_deg v es))) by lra.
    unfold Qeq, inject_Z in E. cbn in E. lia.
  - intros H f.
    (* sum over all vertices below a bound of f(v) * (in - out) *)
    assert (B : exists n, forall a b, In (a, b) es -> (a < n /\ b < n)%nat).
    { clear H. induction es as [|[a b] es [n IH]]; [exists 0%nat; intros a b []|].
      exists (S (a + b + n)). intros x y [E|E]; [injection E as <- <-; lia|]. specialize (IH x y E). lia. }
    destruct B as [n B].
    assert (P : forall x, (x < n)%nat -> f x == sumQ (map (fun v => f v * ind v x) (seq 0 n))).
    { clear B H. assert (G : forall k m x, sumQ (map (fun v => f v * ind v x) (seq k m)) ==
          if (Nat.leb k x && Nat.ltb x (k + m))%bool then f x else 0).
      { intros k m. revert k. induction m as [|m IH]; intros k x; cbn [seq map sumQ].
        - destruct (Nat.leb k x) eqn:E1, (Nat.ltb x (k + 0)) eqn:E2; try reflexivity.
          apply Nat.leb_le in E1. apply Nat.ltb_lt in E2. lia.
        - rewrite IH. unfold ind. destruct (Nat.eqb x k) eqn:E0.
          + apply Nat.eqb_eq in E0. subst x.
            rewrite (proj2 (Nat.leb_gt (S k) k)) by lia.
            rewrite Nat.leb_refl, (proj2 (Nat.ltb_lt k (k + S m))) by lia. cbn [andb]. ring.
          + apply Nat.eqb_neq in E0.
            destruct (Nat.leb k x) eqn:E1.
            * apply Nat.leb_le in E1. rewrite (proj2 (Nat.leb_le (S k) x)) by lia.
              replace (S k + m)%nat with (k + S m)%nat by lia. cbn [andb].
              destruct (Nat.ltb x (k + S m)); ring.
            * apply Nat.leb_gt in E1. rewrite (proj2 (Nat.leb_gt (S k) x)) by lia. cbn [andb]. ring. }
      intros x Hx. rewrite G. cbn [Nat.leb andb]. rewrite Nat.add_0_l, (proj2 (Nat.ltb_lt x n)) by exact Hx.
      reflexivity. }
    rewrite (esum_ext _ (fun a b => sumQ (map (fun v => f v * (ind v b - ind v a)) (seq 0 n)))).
    2:{ intros a b Hab. destruct (B a b Hab) as [Ha Hb]. rewrite (P a Ha), (P b Hb).
        generalize (seq 0 n). intros l. induction l as [|v l IH]; cbn [map sumQ]; [ring|].
        rewrite <- IH. ring. }
    generalize (seq 0 n). intros l. clear B P.
    induction l as [|v l IH]; cbn [map sumQ].
    + clear. induction es as [|[a b] es IH]; cbn [esum]; [reflexivity|]. rewrite IH. ring.
    + rewrite esum_plus, IH, esum_scale, esum_ind, (H v). ring.
Qed.
