From Coq Require Import Lqa Lia Permutation Sorting.Sorted.
From Verif Require Import Base UtilModel.

(* ---- flags ---- *)
(* independent per-bit semantics of an operation *)
Definition mentions (p : N) (i : N) : bool := N.testbit p i.
Definition bit_step (i : N) (b : bool) (o : flag_op) : bool :=
  match o with
  | FAdd p => if mentions p i then true else b
  | FSet p => mentions p i
  | FRemove p => if mentions p i then false else b
  end.

Lemma testbit_255 i : (i < 8)%N -> N.testbit 255 i = true.
Proof.
  intros H. assert (i = 0 \/ i = 1 \/ i = 2 \/ i = 3 \/ i = 4 \/ i = 5 \/ i = 6 \/ i = 7)%N as C by lia.
  repeat (destruct C as [->|C]; [reflexivity|]). subst; reflexivity.
Qed.

Lemma flag_step_bit s o i : (i < 8)%N -> N.testbit (flag_step s o) i = bit_step i (N.testbit s i) o.
Proof.
  intros Hi. destruct o as [p|p|p]; cbn [flag_step bit_step]; unfold mentions.
  - rewrite N.lor_spec. destruct (N.testbit s i), (N.testbit p i); reflexivity.
  - reflexivity.
  - unfold flag_not. rewrite N.land_spec, N.ldiff_spec, testbit_255 by exact Hi.
    destruct (N.testbit s i), (N.testbit p i); reflexivity.
Qed.

Lemma flag_run_bit os : forall s i, (i < 8)%N ->
  N.testbit (flag_run s os) i = fold_left (bit_step i) os (N.testbit s i).
Proof.
  induction os as [|o os IH]; intros s i Hi; [reflexivity|].
  cbn [flag_run fold_left]. fold (flag_run (flag_step s o) os). rewrite IH by exact Hi.
  rewrite flag_step_bit by exact Hi. reflexivity.
Qed.

Lemma has_property_bits s p : has_property s p = true <->
  exists i, N.testbit s i = true /\ N.testbit p i = true.
Proof.
  unfold has_property. rewrite negb_true_iff, N.eqb_neq. split.
  - intros H. destruct (N.land s p) as [|q] eqn:E; [congruence|].
    exists (N.log2 (N.land s p)). rewrite <- andb_true_iff, <- N.land_spec.
    apply N.bit_log2. rewrite E. exact H.
  - intros (i & H1 & H2) E. pose proof (N.land_spec s p i) as L. rewrite E, H1, H2 in L.
    rewrite N.bits_0 in L. discriminate.
Qed.

Definition op_arg (o : flag_op) : N := match o with FAdd p | FSet p | FRemove p => p end.
Definition byte (p : N) : Prop := (p < 256)%N.

Lemma testbit_ge_8 p i : byte p -> N.testbit p i = true -> (i < 8)%N.
Proof.
  intros Hp Hb. destruct (N.lt_ge_cases i 8) as [H|H]; [exact H|].
  destruct (N.eq_dec p 0) as [->|Hz]; [rewrite N.bits_0 in Hb; discriminate|].
  rewrite N.bits_above_log2 in Hb; [discriminate|].
  apply N.lt_le_trans with 8%N; [|exact H]. apply N.log2_lt_pow2; [lia|exact Hp].
Qed.

Lemma byte_ext p q : byte p -> byte q -> (forall i, (i < 8)%N -> N.testbit p i = N.testbit q i) -> p = q.
Proof.
  intros Hp Hq H. apply N.bits_inj. intros i.
  destruct (N.lt_ge_cases i 8) as [Hi|Hi]; [apply H; exact Hi|].
  destruct (N.testbit p i) eqn:E1; [apply testbit_ge_8 in E1; [lia|exact Hp]|].
  destruct (N.testbit q i) eqn:E2; [apply testbit_ge_8 in E2; [lia|exact Hq]|]. reflexivity.
Qed.

Lemma byte_of_bits p : (forall i, (8 <= i)%N -> N.testbit p i = false) -> byte p.
Proof.
  intros H. unfold byte. destruct (N.lt_ge_cases p 256) as [G|G]; [exact G|exfalso].
  assert (L : (8 <= N.log2 p)%N). { apply N.log2_le_pow2; [lia|]. exact G. }
  specialize (H _ L). rewrite N.bit_log2 in H; [discriminate|lia].
Qed.

Lemma flag_step_byte s o : byte s -> byte (op_arg o) -> byte (flag_step s o).
Proof.
  intros Hs Hp. apply byte_of_bits. intros i Hi.
  assert (F : forall p, byte p -> N.testbit p i = false).
  { intros p H. destruct (N.testbit p i) eqn:E; [|reflexivity]. apply testbit_ge_8 in E; [lia|exact H]. }
  destruct o as [p|p|p]; cbn [flag_step op_arg] in *.
  - rewrite N.lor_spec, !F by assumption. reflexivity.
  - apply F. exact Hp.
  - rewrite N.land_spec, (F s Hs). reflexivity.
Qed.

Lemma flag_run_byte os : forall s, byte s -> Forall (fun o => byte (op_arg o)) os -> byte (flag_run s os).
Proof.
  induction os as [|o os IH]; intros s Hs Ho; [exact Hs|]. inversion Ho; subst.
  cbn [flag_run fold_left]. apply IH; [apply flag_step_byte|]; assumption.
Qed.

(* adding flags: the result depends only on the set of flags added *)
Lemma flag_add_perm s l l' : Permutation l l' ->
  flag_run s (map FAdd l) = flag_run s (map FAdd l').
Proof.
  intros H. revert s. induction H; intros s; cbn [map flag_run fold_left flag_step] in *.
  - reflexivity.
  - apply IHPermutation.
  - f_equal. rewrite <- !N.lor_assoc, (N.lor_comm x y). reflexivity.
  - rewrite IHPermutation1. apply IHPermutation2.
Qed.

(* single flag view used by the mesh code *)
Lemma add_has s p : p <> 0%N -> has_property (flag_step s (FAdd p)) p = true.
Proof.
  intros Hp. apply has_property_bits. exists (N.log2 p). cbn [flag_step].
  rewrite N.lor_spec, N.bit_log2 by exact Hp. split; [apply orb_true_r|reflexivity].
Qed.
Lemma remove_has s p : byte p -> has_property (flag_step s (FRemove p)) p = false.
Proof.
  intros Hp. destruct (has_property (flag_step s (FRemove p)) p) eqn:E; [|reflexivity].
  apply has_property_bits in E. destruct E as (i & E1 & E2).
  rewrite flag_step_bit in E1 by (eapply testbit_ge_8; eassumption).
  cbn [bit_step] in E1. unfold mentions in E1. rewrite E2 in E1. discriminate.
Qed.
Lemma other_has s o p : byte p -> N.land (op_arg o) p = 0%N -> (forall q, o <> FSet q) ->
  has_property (flag_step s o) p = has_property s p.
Proof.
  intros Hp Hd Hs. apply eq_true_iff_eq. rewrite !has_property_bits.
  assert (F : forall i, N.testbit p i = true -> N.testbit (op_arg o) i = false /\ (i < 8)%N).
  { intros i Hi. split; [|eapply testbit_ge_8; eassumption].
    pose proof (N.land_spec (op_arg o) p i) as L. rewrite Hd, N.bits_0, Hi, andb_true_r in L. auto. }
  split; intros (i & H1 & H2); exists i; (split; [|exact H2]); destruct (F i H2) as [F1 F2].
  - rewrite flag_step_bit in H1 by exact F2. destruct o; cbn [bit_step op_arg] in *; unfold mentions in *;
      rewrite ?F1 in H1; auto; try discriminate; try (exfalso; eapply Hs; reflexivity).
  - rewrite flag_step_bit by exact F2. destruct o; cbn [bit_step op_arg] in *; unfold mentions in *;
      rewrite ?F1; auto; try (exfalso; eapply Hs; reflexivity).
Qed.

(* ---- MOD ---- *)
Lemma MOD_mod n M : (0 < M)%Z -> MOD n M = (n mod M)%Z.
Proof.
  intros HM. unfold MOD.
  assert (R : (- M < Z.rem n M < M)%Z) by (pose proof (Z.rem_bound_abs n M); lia).
  rewrite Z.rem_mod_nonneg by lia.
  rewrite <- (Z.mul_1_l M) at 2. rewrite Z.mod_add by lia.
  destruct (Z.le_gt_cases 0 n) as [H|H].
  - rewrite Z.rem_mod_nonneg by lia. apply Z.mod_mod. lia.
  - symmetry. rewrite (Z.quot_rem' n M) at 1.
    rewrite Z.add_comm, Z.mul_comm, Z.mod_add by lia. reflexivity.
Qed.

(* ---- CLAMP, EQ ---- *)
Lemma sq_le_cases a b : (0 <= a /\ a <= b) \/ (a <= 0 /\ b <= a) \/ a == 0 -> a * a <= b * b.
Proof. intros [[H1 H2]|[[H1 H2]|H]]; [nra|nra|rewrite H; nra]. Qed.

Lemma CLAMP_spec x lo hi : lo <= hi ->
  lo <= CLAMP x lo hi /\ CLAMP x lo hi <= hi /\ (lo <= x -> x <= hi -> CLAMP x lo hi == x) /\
  (forall y, lo <= y -> y <= hi -> (CLAMP x lo hi - x) * (CLAMP x lo hi - x) <= (y - x) * (y - x)).
Proof.
  intros H. unfold CLAMP, Qmaxb, Qminb.
  destruct (Qltb hi x) eqn:E1; qbool;
  match goal with |- context[if ?c then _ else _] => destruct c eqn:E2 end; qbool;
  (split; [lra|]); (split; [lra|]); (split; [intros; lra|]); intros y Hy1 Hy2; apply sq_le_cases; lra.
Qed.

Lemma ABSq_spec a : (0 <= a -> ABSq a == a) /\ (a <= 0 -> ABSq a == - a) /\ 0 <= ABSq a.
Proof. unfold ABSq. destruct (Qltb 0 a) eqn:E; qbool; repeat split; intros; lra. Qed.

Lemma EQtol_refl a m r : 0 <= m -> EQtol a a m r = true.
Proof.
  intros H. unfold EQtol. destruct (ABSq_spec (a - a)) as (H1 & _ & _).
  rewrite (proj2 (Qleb_true _ _)); [reflexivity|]. rewrite H1 by lra. lra.
Qed.

Lemma Qleb_ext a b c d : a == c -> b == d -> Qleb a b = Qleb c d.
Proof.
  intros H1 H2. apply eq_true_iff_eq. rewrite !Qleb_true, H1, H2. reflexivity.
Qed.

Lemma EQtol_sym a b m r : EQtol a b m r = EQtol b a m r.
Proof.
  unfold EQtol.
  assert (D : ABSq (a - b) == ABSq (b - a)).
  { unfold ABSq. destruct (Qltb 0 (a - b)) eqn:E1, (Qltb 0 (b - a)) eqn:E2; qbool; lra. }
  assert (X : Qmaxb (ABSq a) (ABSq b) == Qmaxb (ABSq b) (ABSq a)).
  { unfold Qmaxb. repeat match goal with |- context[if ?c then _ else _] => destruct c eqn:? end; qbool; lra. }
  rewrite (Qleb_ext _ m _ m D) by reflexivity.
  rewrite (Qleb_ext _ (Qmaxb (ABSq a) (ABSq b) * r) _ (Qmaxb (ABSq b) (ABSq a) * r) D); [reflexivity|].
  rewrite X. reflexivity.
Qed.

(* ---- argsort ---- *)
Definition sort_rel (v : nat -> Q) (i j : nat) : Prop := v i < v j \/ (v i == v j /\ (i < j)%nat).

Lemma ins_idx_perm v i l : Permutation (ins_idx v i l) (i :: l).
Proof.
  induction l as [|j l IH]; cbn [ins_idx]; [reflexivity|].
  destruct (Qltb (v j) (v i)); [|reflexivity]. rewrite IH. apply perm_swap.
Qed.

Lemma ins_idx_sorted v i l : Forall (fun j => (i < j)%nat) l -> StronglySorted (sort_rel v) l ->
  StronglySorted (sort_rel v) (ins_idx v i l).
Proof.
  induction l as [|j l IH]; intros Hf Hs; cbn [ins_idx]; [repeat constructor|].
  inversion Hf; subst. inversion Hs; subst.
  destruct (Qltb (v j) (v i)) eqn:E; qbool.
  - constructor; [apply IH; assumption|].
    rewrite Forall_forall in *. intros k Hk.
    apply (Permutation_in _ (ins_idx_perm v i l)) in Hk. destruct Hk as [<-|Hk]; [left; exact E|].
    auto.
  - constructor; [constructor; assumption|]. rewrite Forall_forall in *.
    assert (R : forall k, v j < v k \/ v j == v k -> (i < k)%nat -> sort_rel v i k).
    { intros k Hk Hlt. destruct (Q_dec (v i) (v k)) as [[C|C]|C]; [left; exact C| |right; auto].
      exfalso. destruct Hk; lra. }
    intros k [<-|Hk].
    + apply R; [right; reflexivity|assumption].
    + apply R; [|apply H2; exact Hk]. destruct (H4 k Hk) as [C|[C _]]; auto.
Qed.

Lemma argsort_ok v : Permutation (argsort v) (seq 0 (length v)) /\
  StronglySorted (sort_rel (fun i => nth i v 0)) (argsort v).
Proof.
  unfold argsort. generalize (length v) as n. generalize 0%nat as k. intros k n. revert k.
  induction n as [|n IH]; intros k; cbn [seq fold_right].
  - split; [reflexivity|constructor].
  - destruct (IH (S k)) as [P S1].
    set (l := fold_right _ _ _) in *. split.
    + rewrite ins_idx_perm, P. reflexivity.
    + apply ins_idx_sorted; [|exact S1]. rewrite Forall_forall. intros j Hj.
      apply (Permutation_in _ P) in Hj. apply in_seq in Hj. lia.
Qed.

(* ---- vectors ---- *)
Lemma trunc_int z : trunc (inject_Z z) = z.
Proof. unfold trunc, inject_Z. cbn. apply Z.quot_1_r. Qed.

Lemma trunc_ext_int q z : q == inject_Z z -> trunc q = z.
Proof.
  intros H. unfold trunc. destruct q as [n d]. unfold Qeq, inject_Z in H. cbn in *.
  rewrite Z.mul_1_r in H. subst n. apply Z.quot_mul. discriminate.
Qed.

Lemma vec_sum_int l : vec_sum (map inject_Z l) == inject_Z (fold_right Z.add 0%Z l).
Proof.
  unfold vec_sum.
  assert (F : forall l a, fold_left (fun acc x => trunc (inject_Z acc + x)) (map inject_Z l) a =
     (a + fold_right Z.add 0 l)%Z).
  { induction l0 as [|z l0 IH]; intros a; cbn [map fold_left fold_right]; [lia|].
    rewrite (trunc_ext_int _ (a + z)%Z) by (rewrite inject_Z_plus; reflexivity). rewrite IH. lia. }
  rewrite F. reflexivity.
Qed.

Lemma vec_norm_sqr_sum l : forall a, 0 <= a ->
  a <= fold_left (fun a x => a + x * x) l a /\
  (fold_left (fun a x => a + x * x) l a == a -> Forall (fun x => x == 0) l).
Proof.
  induction l as [|x l IH]; intros a Ha; cbn [fold_left]; [split; [lra|constructor]|].
  assert (Hx : 0 <= x * x) by nra.
  destruct (IH (a + x * x)) as [I1 I2]; [lra|]. split; [lra|].
  intros E. assert (X0 : x * x == 0) by lra.
  constructor.
  - apply Qmult_integral in X0. tauto.
  - apply I2. lra.
Qed.

(* is_zero() ignores the tolerance: only the exact zero vector is "near zero" *)
Lemma vec_is_zero_exact ulp l : ulp < inject_Z 4503599627370496 ->
  vec_is_zero ulp l = true <-> Forall (fun x => x == 0) l.
Proof.
  intros Hu. unfold vec_is_zero. rewrite Qleb_true.
  destruct (vec_norm_sqr_sum l 0) as [H1 H2]; [lra|]. fold (vec_norm_sqr l) in *.
  split.
  - intros H. apply H2. destruct (Q_dec (vec_norm_sqr l) 0) as [[C|C]|C]; [lra| |exact C].
    exfalso. unfold inject_Z in Hu. 
    assert (K : (1 # 4503599627370496) * ulp < 1).
    { setoid_replace 1 with ((1 # 4503599627370496) * (4503599627370496 # 1)) by reflexivity.
      apply Qmult_lt_l; [reflexivity|exact Hu]. }
    set (e := (1 # 4503599627370496)) in *. set (v := vec_norm_sqr l) in *.
    assert (E : e * v * ulp == (e * ulp) * v) by ring. rewrite E in H. clearbody e v. nra.
  - intros F. assert (Z : vec_norm_sqr l == 0).
    { unfold vec_norm_sqr. clear H1 H2. generalize (Qeq_refl 0). generalize 0 at 1 3. 
      induction F as [|x l Hx F IH]; intros a Ha; cbn [fold_left]; [exact Ha|].
      apply IH. rewrite Ha, Hx. reflexivity. }
    rewrite Z. lra.
Qed.

(* the named flags *)
Definition pairwise_disjoint (l : list N) : Prop :=
  forall i j a b, nth_error l i = Some a -> nth_error l j = Some b -> i <> j -> N.land a b = 0%N.
Ltac pw := intros i j a b Hi Hj Hn;
  destruct i as [|[|[|[|i]]]]; cbn in Hi; try (destruct i; discriminate); try discriminate;
  destruct j as [|[|[|[|j]]]]; cbn in Hj; try (destruct j; discriminate); try discriminate;
  try (exfalso; apply Hn; reflexivity); injection Hi as <-; injection Hj as <-; reflexivity.
Lemma named_flags_disjoint :
  pairwise_disjoint [v_on_front; v_in_quad_layer; v_is_fixed; v_on_boundary] /\
  pairwise_disjoint [e_on_boundary; e_is_fixed; e_is_ghost] /\
  Forall (fun p => byte p /\ p <> 0%N)
    [v_on_front; v_in_quad_layer; v_is_fixed; v_on_boundary; e_on_boundary; e_is_fixed; e_is_ghost].
Proof.
  split; [pw|split; [pw|]].
  repeat constructor; discriminate.
Qed.
