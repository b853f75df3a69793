(* Proofs about the sub vertices of an edge. *)
From Coq Require Import Lia Lqa.
From Verif Require Import Base Chain GeomModel BdryModel BdryProofs FrontModel FrontSpec FrontProofs.
Open Scope Q_scope.

Section Walk.
Variable r : Q -> Q.
Variables m M : Q.
Hypothesis m_pos : 0 < m.
Hypothesis r_low : forall t, m <= r t.

(* the walk *)
Fixpoint stepped (t : Q) (ts : list Q) : Prop :=
  match ts with [] => True | x :: l => x = sub_step r t /\ stepped x l end.

Lemma walk_spec fuel : forall stop t ts, sub_walk fuel r stop t = Some ts ->
  exists inner tn, ts = inner ++ [tn] /\ stepped t ts /\ Forall (fun x => x <= stop) inner /\ stop < tn.
Proof.
  induction fuel as [|fuel IH]; intros stop t ts; cbn [sub_walk]; [discriminate|]. cbv zeta.
  destruct (Qltb stop (sub_step r t)) eqn:E.
  - intros H. injection H as <-. apply Qltb_true in E. exists [], (sub_step r t). cbn. auto.
  - destruct (sub_walk fuel r stop (sub_step r t)) as [l|] eqn:W; [|discriminate]. intros H. injection H as <-.
    destruct (IH _ _ _ W) as (inner & tn & A & B & C & D). exists (sub_step r t :: inner), tn. rewrite A in *.
    split; [reflexivity|]. split; [split; [reflexivity|exact B]|]. split; [|exact D]. constructor; [|exact C].
    apply Qltb_false in E. exact E.
Qed.
Lemma step_low t : t + m <= sub_step r t.
Proof. unfold sub_step. pose proof (r_low t). pose proof (r_low (t + r t)). lra. Qed.

Lemma walk_ends fuel : forall stop t, stop - t < inject_Z (Z.of_nat fuel) * m -> 
  exists ts, sub_walk (S fuel) r stop t = Some ts.
Proof.
  induction fuel as [|fuel IH]; intros stop t H.
  - cbn [sub_walk]. cbv zeta. destruct (Qltb stop (sub_step r t)) eqn:E; [eexists; reflexivity|].
    apply Qltb_false in E. pose proof (step_low t). assert (Z : inject_Z (Z.of_nat 0) * m == 0) by (cbn; ring).
    rewrite Z in H. lra.
  - remember (S fuel) as f eqn:Hf. cbn [sub_walk]. cbv zeta. subst f.
    destruct (Qltb stop (sub_step r t)) eqn:E; [eexists; reflexivity|].
    destruct (IH stop (sub_step r t)) as (ts & T).
    + pose proof (step_low t). rewrite Nat2Z.inj_succ in H. unfold Z.succ in H. rewrite inject_Z_plus in H. change (inject_Z 1) with 1 in H. lra.
    + rewrite T. eexists. reflexivity.
Qed.

Hypothesis r_high : forall t, r t <= M.
Lemma step_high t : sub_step r t <= t + M.
Proof. unfold sub_step. pose proof (r_high t). pose proof (r_high (t + r t)). lra. Qed.

Variables tot dd : Q.
Definition shift (t : Q) : Q := t + r t / tot * dd.

Lemma r_ratio a : 0 < tot -> r a <= tot -> 0 <= r a / tot <= 1.
Proof.
  intros T H. pose proof (r_low a). split.
  - apply Qle_shift_div_l; [exact T|lra].
  - apply Qle_shift_div_r; [exact T|lra].
Qed.
Lemma ratio_diff a b : 0 < tot -> r a + r b <= tot -> -(1) <= r b / tot - r a / tot <= 1.
Proof.
  intros T H. pose proof (r_low a). pose proof (r_low b).
  destruct (r_ratio a T ltac:(lra)), (r_ratio b T ltac:(lra)). lra.
Qed.
Lemma sum_low l : 0 <= sumQ (map r l).
Proof. induction l as [|x l IH]; cbn; [lra|]. pose proof (r_low x). lra. Qed.

Lemma shift_step a b : 0 < tot -> r a + r b <= tot -> a + m <= b -> -m < dd < m -> shift a < shift b.
Proof.
  intros T H S D. destruct (ratio_diff a b T H) as [L U]. unfold shift.
  set (ra := r a / tot) in *. set (rb := r b / tot) in *. clearbody ra rb. clear - S D L U m_pos.
  assert (E : - m < (rb - ra) * dd).
  { set (e := rb - ra) in *. clearbody e. destruct (Qlt_le_dec dd 0) as [N|N].
    - assert (0 <= (1 - e) * - dd) by (apply Qmult_le_0_compat; lra). lra.
    - assert (0 <= (1 + e) * dd) by (apply Qmult_le_0_compat; lra). lra. }
  lra.
Qed.
Lemma shift_increasing hi l : forall a, 0 < tot -> -m < dd < m ->
  stepped a l -> r a + sumQ (map r l) <= tot ->
  shift (last l a) < hi -> increasing (shift a) (map shift l) hi.
Proof.
  induction l as [|b l IH]; intros a T D S H Y; cbn [map increasing].
  - exact Y.
  - cbn [stepped] in S. destruct S as [-> S]. cbn [map sumQ] in H. pose proof (sum_low l) as SL. pose proof (r_low a).
    split.
    + apply shift_step; [exact T|lra|apply step_low|exact D].
    + apply IH; [exact T|exact D|exact S|lra|].
      replace (last l (sub_step r a)) with (last (sub_step r a :: l) a); [exact Y|].
      destruct l as [|c l]; [reflexivity|]. cbn [last]. clear. revert c. induction l as [|e l IHl]; intros c; [reflexivity|apply IHl].
Qed.
End Walk.

Lemma stepped_app r l : forall t l', stepped r t (l ++ l') -> stepped r t l.
Proof. induction l as [|x l IH]; intros t l'; cbn; [auto|]. intros [A B]. split; [exact A|exact (IH _ _ B)]. Qed.
Lemma stepped_last r l : forall t tn, stepped r t (l ++ [tn]) -> tn = sub_step r (last l t).
Proof.
  induction l as [|x l IH]; intros t tn; cbn [app stepped]; [intros [H _]; exact H|]. intros [_ H].
  rewrite (IH _ _ H). destruct l as [|y l]; [reflexivity|]. f_equal. cbn [last]. clear. revert y. induction l as [|z l IHl]; intros y; [reflexivity|apply IHl].
Qed.

Lemma last_indep {A} (l : list A) a b : l <> [] -> last l a = last l b.
Proof. induction l as [|x l IH]; [congruence|]. intros _. destruct l as [|y l]; [reflexivity|]. apply IH. discriminate. Qed.
Lemma sum_member (r : Q -> Q) (m : Q) (l : list Q) (x : Q) : 0 < m -> (forall t, m <= r t) -> In x l -> r x <= sumQ (map r l).
Proof.
  intros P L. induction l as [|y l IH]; intros H; [destruct H|]. cbn [map sumQ].
  assert (S : 0 <= sumQ (map r l)). { clear - P L. induction l as [|z l IHl]; cbn; [lra|]. pose proof (L z). lra. }
  pose proof (L y). destruct H as [-> |H]; [lra|]. specialize (IH H). lra.
Qed.

(* Moderate variation of the size: the sub vertices stay inside, in order. *)
Lemma abscissas_inside fuel r m M rho12 len ts :
  0 < m -> 2 * M < 3 * m -> 0 < len -> (forall t, m <= r t <= M) -> 2 * m <= rho12 <= 2 * M ->
  sub_abscissas fuel r rho12 len = Some ts -> increasing 0 ts len.
Proof.
  intros P MM L R R12. unfold sub_abscissas. destruct (sub_walk fuel r (sub_stop rho12 len) 0) as [ws|] eqn:W; [|discriminate].
  intros H. injection H as <-. destruct (walk_spec r _ _ _ _ W) as (inner & tn & E & S & F & ST).
  unfold sub_inner. rewrite E, removelast_last, last_last.
  set (tot := sumQ (map r inner)) in *. set (dd := len - tn) in *.
  destruct inner as [|a l]; [exact L|].
  rewrite E in S. cbn [app stepped] in S. destruct S as [A S].
  assert (LO : forall t, m <= r t) by (intros t; apply (R t)).
  assert (HI : forall t, r t <= M) by (intros t; apply (R t)).
  assert (TN : tn = sub_step r (last l a)) by exact (stepped_last _ _ _ _ S).
  set (z := last l a) in *.
  assert (IZ : In z (a :: l)). { unfold z. clear. revert a. induction l as [|b l IH]; intros a; [left; reflexivity|].
    right. destruct l as [|c l]; [left; reflexivity|]. specialize (IH b). rewrite (last_indep (c :: l) b a) in IH by discriminate. exact IH. }
  assert (Z1 : z <= sub_stop rho12 len) by (rewrite Forall_forall in F; exact (F z IZ)).
  assert (A1 : m <= a). { rewrite A. pose proof (step_low r m LO 0). lra. }
  assert (A2 : a <= sub_stop rho12 len) by (rewrite Forall_forall in F; apply F; left; reflexivity).
  assert (T1 : z + m <= tn) by (rewrite TN; apply step_low; exact LO).
  assert (T2 : tn <= z + M) by (rewrite TN; apply step_high; exact HI).
  assert (SS : len - sub_stop rho12 len == (1 # 4) * rho12).
  { unfold sub_stop, Qminb. set (q := (1 # 2) * rho12 / len).
    assert (Q1 : q * len == (1 # 2) * rho12) by (unfold q; field; lra).
    destruct (Qltb 1 q) eqn:B.
    - exfalso. apply Qltb_true in B. unfold sub_stop, Qminb in A2. fold q in A2.
      rewrite (proj2 (Qltb_true 1 q) B) in A2. clearbody q. clear - A1 A2 B Q1 P MM L R12. nra.
    - clearbody q. clear - Q1. nra. }
  assert (TP : 0 < tot). { unfold tot. cbn [map sumQ]. pose proof (sum_low r m P LO l). pose proof (LO a). lra. }
  assert (DD : -m < dd < m) by (unfold dd; lra).
  assert (ZT : r z <= tot) by exact (sum_member r m _ z P LO IZ).
  destruct (r_ratio r m P LO tot z TP ZT) as [Z2 Z3].
  assert (ZE : shift r tot dd z < len).
  { unfold shift. set (q := r z / tot) in *. clearbody q. unfold dd in *. clear - Z1 Z2 Z3 SS T1 P R12.
    assert (len - z - q * (len - tn) > 0) by nra. lra. }
  assert (A3 : 0 < shift r tot dd a).
  { assert (AT : r a <= tot) by (apply (sum_member r m _ a P LO); left; reflexivity).
    destruct (r_ratio r m P LO tot a TP AT) as [B1 B2]. unfold shift. set (q := r a / tot) in *. clearbody q dd.
    clear - A1 B1 B2 DD P. nra. }
  cbn [map increasing]. split; [exact A3|].
  apply (shift_increasing r m P LO tot dd len l a TP DD); [exact (stepped_app _ _ _ _ S)| |exact ZE].
  unfold tot. cbn [map sumQ]. lra.
Qed.

(* ---- coordinates ---- *)
Lemma along_on_line a b len t : on_line a b (along a b len t).
Proof. exists (t / len). apply veq_refl. Qed.
Lemma along_rev a b len t : ~ len == 0 -> veq (along b a len t) (vadd a (vscale (1 - t / len) (vsub b a))).
Proof. intros N. split; cbn; field; exact N. Qed.
Lemma sub_coords_on_line fuel rho len a b pts : sub_coords fuel rho len a b = Some pts -> Forall (on_line a b) pts.
Proof.
  unfold sub_coords. destruct (Qltb (rho a) (rho b)).
  - destruct (sub_abscissas _ _ _ _) as [ts|]; [|discriminate]. intros H. injection H as <-.
    apply Forall_forall. intros p Hp. apply in_map_iff in Hp. destruct Hp as (t & <- & _). apply along_on_line.
  - destruct (sub_abscissas _ _ _ _) as [ts|]; [|discriminate]. intros H. injection H as <-.
    apply Forall_forall. intros p Hp. apply in_rev in Hp. apply in_map_iff in Hp. destruct Hp as (t & <- & _).
    exists (1 - t / len). split; cbn; ring.
Qed.

Lemma increasing_scale len l : 0 < len -> forall lo hi, increasing lo l hi -> increasing (lo / len) (map (fun t => t / len) l) (hi / len).
Proof.
  intros L. assert (D : forall x y, x < y -> x / len < y / len).
  { intros x y H. apply Qlt_shift_div_l; [exact L|]. setoid_replace (x / len * len) with x by (field; lra). exact H. }
  induction l as [|x l IH]; intros lo hi; cbn [map increasing]; [apply D|]. intros [A B]. split; [apply D, A|apply IH, B].
Qed.
Lemma increasing_compat lo lo' l hi hi' : lo == lo' -> hi == hi' -> increasing lo l hi -> increasing lo' l hi'.
Proof.
  revert lo lo'. induction l as [|x l IH]; intros lo lo' E E'; cbn [increasing]; [lra|]. intros [A B].
  split; [lra|]. exact (IH x x (Qeq_refl x) E' B).
Qed.
Lemma increasing_snoc lo l x hi : increasing lo (l ++ [x]) hi <-> increasing lo l x /\ x < hi.
Proof. revert lo. induction l as [|y l IH]; intros lo; cbn [app increasing]; [tauto|]. rewrite IH. tauto. Qed.
Lemma increasing_rev l : forall lo hi, increasing lo l hi -> increasing (1 - hi) (rev (map (fun t => 1 - t) l)) (1 - lo).
Proof.
  induction l as [|x l IH]; intros lo hi; cbn [map rev increasing]; [lra|]. intros [A B].
  apply increasing_snoc. split; [apply IH, B|lra].
Qed.

Lemma coords_inside fuel rho len a b pts m M : 0 < m -> 2 * M < 3 * m -> 0 < len -> (forall x, m <= rho x <= M) ->
  sub_coords fuel rho len a b = Some pts -> strictly_inside a b pts.
Proof.
  intros P MM L R. unfold sub_coords, strictly_inside.
  assert (R12 : 2 * m <= rho a + rho b <= 2 * M) by (pose proof (R a); pose proof (R b); lra).
  assert (LL : ~ len == 0) by lra.
  destruct (Qltb (rho a) (rho b)).
  - destruct (sub_abscissas _ _ _ _) as [ts|] eqn:E; [|discriminate]. intros H. injection H as <-.
    pose proof (abscissas_inside _ _ m M _ _ _ P MM L (fun t => R _) R12 E) as I. apply (increasing_scale len ts L) in I.
    exists (map (fun t => t / len) ts). split; [eapply increasing_compat; [| |exact I]; field; exact LL|].
    clear. induction ts; constructor; [apply veq_refl|assumption].
  - destruct (sub_abscissas _ _ _ _) as [ts|] eqn:E; [|discriminate]. intros H. injection H as <-.
    pose proof (abscissas_inside _ _ m M _ _ _ P MM L (fun t => R _) R12 E) as I. apply (increasing_scale len ts L) in I.
    apply increasing_rev in I. exists (rev (map (fun t => 1 - t) (map (fun t => t / len) ts))).
    split; [eapply increasing_compat; [| |exact I]; field; exact LL|].
    apply Forall2_rev'. rewrite map_map. clear - LL. induction ts; constructor; [apply along_rev; exact LL|assumption].
Qed.

Lemma coords_end fuel rho len a b m : 0 < m -> 0 < len -> (forall x, m <= rho x) ->
  len < inject_Z (Z.of_nat fuel) * m -> exists pts, sub_coords (S fuel) rho len a b = Some pts.
Proof.
  intros P L R F.
  assert (ST : sub_stop (rho a + rho b) len <= len).
  { unfold sub_stop. pose proof (R a). pose proof (R b).
    assert (0 <= Qminb 1 ((1 # 2) * (rho a + rho b) / len)).
    { unfold Qminb. destruct (Qltb _ _); [lra|]. apply Qle_shift_div_l; [exact L|lra]. }
    set (q := Qminb _ _) in *. clearbody q. nra. }
  unfold sub_coords, sub_abscissas. destruct (Qltb (rho a) (rho b)).
  - destruct (walk_ends (fun t => rho (along a b len t)) m P (fun t => R _) fuel (sub_stop (rho a + rho b) len) 0 ltac:(lra)) as (ts & ->).
    cbn. eexists. reflexivity.
  - destruct (walk_ends (fun t => rho (along b a len t)) m P (fun t => R _) fuel (sub_stop (rho a + rho b) len) 0 ltac:(lra)) as (ts & ->).
    cbn. eexists. reflexivity.
Qed.
