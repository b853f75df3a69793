From Coq Require Import List ZArith QArith Ascii Bool Lia Sorting.Sorted.
From Verif Require Import Base ToolModel ToolSpec.
Import ListNotations.
Open Scope Z_scope.

Lemma put_length {A} : forall k (x : A) l, length (put k x l) = length l.
Proof. intros k x l; revert k; induction l; intros [|k]; simpl; auto. Qed.
Lemma put_same {A} : forall k (x : A) l, (k < length l)%nat -> nth_error (put k x l) k = Some x.
Proof. intros k x l; revert k; induction l; intros [|k] H; simpl in *; try lia; auto. apply IHl; lia. Qed.
Lemma put_other {A} : forall k k' (x : A) l, k <> k' -> nth_error (put k x l) k' = nth_error l k'.
Proof. intros k k' x l; revert k k'; induction l; intros [|k] [|k'] H; simpl; try congruence; auto. Qed.
Lemma put_forall {A} (P : A -> Prop) : forall k x l, P x -> Forall P l -> Forall P (put k x l).
Proof.
  intros k x l Hx H; revert k; induction H; intros [|k]; simpl; constructor; auto.
Qed.

Lemma index_ok : forall m i j, shaped m -> inside m i j -> m_index m i j = Ok (Z.to_nat (i * m_cols m + j)).
Proof.
  intros m i j (Hr & Hc & Hl) ((Hi & Hi') & Hj & Hj'). unfold m_index. rewrite Hl.
  assert (i * m_cols m + m_cols m <= m_rows m * m_cols m) by nia.
  assert (0 <= i * m_cols m) by nia.
  replace (0 <=? i * m_cols m) with true by (symmetry; apply Z.leb_le; lia).
  replace (i * m_cols m <=? m_rows m * m_cols m) with true by (symmetry; apply Z.leb_le; lia).
  replace (0 <=? i * m_cols m + j) with true by (symmetry; apply Z.leb_le; lia).
  replace (i * m_cols m + j <? m_rows m * m_cols m) with true by (symmetry; apply Z.ltb_lt; lia).
  reflexivity.
Qed.
Lemma index_lt : forall m i j, shaped m -> inside m i j -> (Z.to_nat (i * m_cols m + j) < length (m_data m))%nat.
Proof.
  intros m i j (Hr & Hc & Hl) ((Hi & Hi') & Hj & Hj').
  assert (i * m_cols m + m_cols m <= m_rows m * m_cols m) by nia.
  assert (0 <= i * m_cols m) by nia. lia.
Qed.
Lemma index_inj : forall c i j i' j', 0 <= i -> 0 <= i' -> 0 <= j < c -> 0 <= j' < c ->
  Z.to_nat (i * c + j) = Z.to_nat (i' * c + j') -> i = i' /\ j = j'.
Proof.
  intros. assert (E : i * c + j = i' * c + j') by (apply Z2Nat.inj; nia).
  assert (i = i') by nia. subst. split; lia.
Qed.

Lemma get_ok : forall m i j, shaped m -> inside m i j -> exists x, m_get m i j = Ok x.
Proof.
  intros m i j S I. unfold m_get. rewrite (index_ok m i j S I).
  destruct (nth_error (m_data m) _) eqn:E; eauto.
  apply nth_error_None in E. pose proof (index_lt m i j S I). lia.
Qed.
Lemma set_get : forall m i j x, shaped m -> inside m i j -> exists m', m_set m i j x = Ok m' /\ shaped m' /\
  m_rows m' = m_rows m /\ m_cols m' = m_cols m /\
  m_get m' i j = Ok x /\
  forall i' j', inside m i' j' -> (i', j') <> (i, j) -> m_get m' i' j' = m_get m i' j'.
Proof.
  intros m i j x S I. unfold m_set. rewrite (index_ok m i j S I).
  set (k := Z.to_nat (i * m_cols m + j)).
  set (m' := Mat (m_rows m) (m_cols m) (put k x (m_data m))).
  assert (S' : shaped m') by (destruct S as (? & ? & ?); repeat split; simpl; auto; rewrite put_length; auto).
  exists m'. split; [reflexivity|]. split; [exact S'|]. do 2 (split; [reflexivity|]). split.
  - unfold m_get. rewrite (index_ok m' i j S' I). simpl. fold k.
    rewrite put_same; [reflexivity|]. apply index_lt; auto.
  - intros i' j' I' N. unfold m_get. rewrite (index_ok m' i' j' S' I'), (index_ok m i' j' S I').
    simpl. rewrite put_other; [reflexivity|].
    intro E. apply N. destruct I as [? ?], I' as [? ?].
    destruct (index_inj (m_cols m) i j i' j') as [-> ->]; auto; lia.
Qed.

Lemma new_shaped : forall r c, 0 <= r -> 0 <= c -> exists m, m_new r c = Ok m /\ shaped m /\ m_rows m = r /\ m_cols m = c /\
  forall i j, inside m i j -> m_get m i j = Ok 0.
Proof.
  intros r c Hr Hc. unfold m_new.
  replace (r * c <? 0) with false by (symmetry; apply Z.ltb_ge; nia).
  eexists; split; [reflexivity|].
  assert (S : shaped (Mat r c (repeat 0 (Z.to_nat (r * c))))).
  { repeat split; simpl; auto. rewrite repeat_length. nia. }
  split; [exact S|]. do 2 (split; [reflexivity|]).
  intros i j I. unfold m_get. rewrite (index_ok _ i j S I).
  pose proof (index_lt _ i j S I) as L. simpl in L |- *. rewrite repeat_length in L.
  rewrite (nth_error_nth' _ 0) by (rewrite repeat_length; exact L). now rewrite nth_repeat.
Qed.

Lemma resize_shaped : forall m r c, shaped m -> 0 <= r -> 0 <= c -> exists m', m_resize m r c = Ok m' /\ shaped m' /\
  m_rows m' = r /\ m_cols m' = c /\
  (c = m_cols m -> forall i j, inside m' i j -> m_get m' i j = if i <? m_rows m then m_get m i j else Ok 0).
Proof.
  intros m r c S Hr Hc. unfold m_resize.
  replace (r * c <? 0) with false by (symmetry; apply Z.ltb_ge; nia).
  eexists; split; [reflexivity|].
  set (n := Z.to_nat (r * c)). set (l := firstn n (m_data m) ++ repeat 0 (n - length (m_data m))).
  assert (L : length l = n). { unfold l. rewrite app_length, firstn_length, repeat_length. lia. }
  assert (S' : shaped (Mat r c l)). { repeat split; simpl; auto. rewrite L. unfold n. nia. }
  split; [exact S'|]. do 2 (split; [reflexivity|]).
  intros E i j I. subst c. unfold m_get at 1. rewrite (index_ok _ i j S' I). cbn [m_cols m_data].
  pose proof (index_lt _ i j S' I) as K. cbn [m_cols m_data] in K. rewrite L in K.
  destruct I as [[I1 I2] [J1 J2]]. cbn [m_rows m_cols] in *.
  destruct S as (Sr & Sc & Sl).
  destruct (i <? m_rows m) eqn:T.
  - apply Z.ltb_lt in T. unfold m_get. rewrite (index_ok m i j); [|split; auto|split; auto].
    assert (M : (Z.to_nat (i * m_cols m + j) < length (m_data m))%nat) by (apply index_lt; split; auto).
    unfold l. rewrite nth_error_app1 by (rewrite firstn_length; lia).
    replace (nth_error (firstn n (m_data m)) (Z.to_nat (i * m_cols m + j))) with (nth_error (m_data m) (Z.to_nat (i * m_cols m + j))); [reflexivity|].
    rewrite <- (firstn_skipn n (m_data m)) at 1. rewrite nth_error_app1; [reflexivity|]. rewrite firstn_length; lia.
  - apply Z.ltb_ge in T.
    assert (M : (length (m_data m) <= Z.to_nat (i * m_cols m + j))%nat) by nia.
    unfold l. rewrite nth_error_app2 by (rewrite firstn_length; lia).
    rewrite firstn_length, Nat.min_r by lia.
    rewrite (nth_error_nth' _ 0) by (rewrite repeat_length; lia). now rewrite nth_repeat.
Qed.

Lemma nth_forall {A} (P : A -> Prop) : forall l i x, Forall P l -> nth_error l i = Some x -> P x.
Proof. intros l i x H E. rewrite Forall_forall in H. apply H. eapply nth_error_In; eauto. Qed.

Lemma step_shaped : forall st o st', Forall shaped st -> plain o -> mstep st o = Ok st' -> Forall shaped st'.
Proof.
  intros st o st' H Pl E. destruct o; simpl in *; try contradiction; unfold with_m in E.
  - destruct Pl as [Hr Hc]. destruct (new_shaped r c Hr Hc) as (m & Em & Sm & _). rewrite Em in E. simpl in E.
    injection E as <-. apply Forall_app; auto.
  - destruct (nth_error st i) eqn:N; [|discriminate]. injection E as <-. apply Forall_app; split; auto.
    constructor; auto. eapply nth_forall; eauto.
  - destruct (nth_error st j) eqn:N; [|discriminate]. destruct (nth_error st i); [|discriminate].
    destruct (Nat.eqb i j); [discriminate|]. injection E as <-. apply put_forall; auto. eapply nth_forall; eauto.
  - destruct Pl as [Hr Hc]. destruct (nth_error st i) eqn:N; [|discriminate].
    destruct (resize_shaped m r c) as (m' & Em & Sm & _); auto; [eapply nth_forall; eauto|].
    rewrite Em in E. simpl in E. injection E as <-. apply put_forall; auto.
  - destruct (nth_error st i) eqn:N; [|discriminate]. unfold m_set in E.
    destruct (m_index m a b) as [k| |]; simpl in E; try discriminate. injection E as <-.
    apply put_forall; auto. destruct (nth_forall _ _ _ _ H N) as (? & ? & ?).
    repeat split; simpl; auto. now rewrite put_length.
Qed.
Lemma run_shaped : forall os st st', Forall shaped st -> Forall plain os -> mrun st os = Ok st' -> Forall shaped st'.
Proof.
  induction os as [|o os IH]; simpl; intros st st' H Pl E.
  - now injection E as <-.
  - inversion Pl; subst. destruct (mstep st o) eqn:S; try discriminate.
    eapply IH; [|eassumption|eassumption]. eapply step_shaped; eauto.
Qed.

(* ---- the bar ---- *)
Lemma clamped_min : forall p, Z.min 100 (Z.max 0 p) = clamped p.
Proof. intro p. unfold clamped. destruct (p <? 0) eqn:A; destruct (100 <? p) eqn:B; lia. Qed.
Lemma clamped_range : forall p, 0 <= clamped p <= 100.
Proof. intro p. rewrite <- clamped_min. lia. Qed.

Lemma cells_text : forall w p, 0 <= w -> 0 <= p <= 100 ->
  map (fun i => bar_cell (Z.quot (w * p) 100) (Z.of_nat i)) (seq 0 (Z.to_nat w)) = bar_text w p.
Proof.
  intros w p Hw Hp. unfold bar_text. rewrite Z.quot_div_nonneg by nia.
  set (q := w * p / 100).
  assert (Q0 : 0 <= q) by (apply Z.div_pos; nia).
  assert (Q1 : q <= w). { unfold q. apply Z.div_le_upper_bound; nia. }
  replace (Z.to_nat w) with (Z.to_nat q + (Z.to_nat w - Z.to_nat q))%nat at 1 by lia.
  rewrite seq_app, map_app. f_equal.
  - assert (G : forall k s, (s + k <= Z.to_nat q)%nat -> map (fun i => bar_cell q (Z.of_nat i)) (seq s k) = repeat "="%char k).
    { induction k; intros s L; simpl; auto. f_equal; [|apply IHk; lia].
      unfold bar_cell. replace (Z.of_nat s <? q) with true; auto. symmetry; apply Z.ltb_lt; lia. }
    apply G; lia.
  - destruct (Z.to_nat w - Z.to_nat q)%nat as [|k]; simpl; auto. f_equal.
    + unfold bar_cell. rewrite Z2Nat.id by auto. now rewrite Z.ltb_irrefl, Z.eqb_refl.
    + assert (G : forall k s, (Z.to_nat q < s)%nat -> map (fun i => bar_cell q (Z.of_nat i)) (seq s k) = repeat " "%char k).
      { induction k0; intros s L; simpl; auto. f_equal; [|apply IHk0; lia].
        unfold bar_cell. replace (Z.of_nat s <? q) with false by (symmetry; apply Z.ltb_ge; lia).
        replace (Z.of_nat s =? q) with false; auto. symmetry; apply Z.eqb_neq; lia. }
      apply G; lia.
Qed.

Lemma bar_run_inv : forall ps b e out, 0 <= b_width b -> 0 <= b_prog b <= 100 -> bar_run b ps = (e, out) ->
  b_width e = b_width b /\ b_prog e = fold_left (fun a p => Z.max a (clamped p)) ps (b_prog b) /\
  Forall (fun l => fst l = bar_text (b_width b) (snd l) /\ b_prog b < snd l <= 100 /\ In (snd l) (map clamped ps)) out /\
  StronglySorted Z.lt (map snd out) /\
  (forall p, In p ps -> clamped p <= b_prog b \/ exists l, In l out /\ clamped p <= snd l).
Proof.
  induction ps as [|p ps IH]; intros b e out Hw Hp E.
  - simpl in E. injection E as <- <-. split; [reflexivity|]. split; [reflexivity|]. split; [constructor|]. split; [constructor|]. intros ? [].
  - simpl in E. destruct (bar_run (bar_update b p) ps) as [e' out'] eqn:R.
    injection E as -> <-. unfold bar_update in *. rewrite clamped_min in *.
    pose proof (clamped_range p) as C.
    destruct (clamped p <=? b_prog b) eqn:T.
    + apply Z.leb_le in T. destruct (IH (Bar (b_width b) (b_prog b) false) e out' Hw Hp R) as (A & B & D & F & G). cbn [b_width b_prog] in *.
      split; [auto|]. split; [|split; [|split; [try exact F|]]].
      * simpl. rewrite Z.max_l by lia. exact B.
      * cbn [bar_show b_upd]. eapply Forall_impl; [|exact D]. simpl. tauto.
      * intros x [<-|I]; [left; lia|]. apply G; auto.
    + apply Z.leb_gt in T.
      destruct (IH (Bar (b_width b) (clamped p) true) e out' Hw C R) as (A & B & D & F & G). cbn [b_width b_prog] in *.
      unfold bar_show. cbn [b_upd b_width b_prog]. rewrite cells_text by auto.
      split; [auto|]. split; [|split; [|split; [try exact F|]]].
      * simpl. rewrite Z.max_r by lia. exact B.
      * constructor; [simpl; repeat split; auto; lia|]. eapply Forall_impl; [|exact D].
        simpl. intros l (? & ? & ?). repeat split; auto; lia.
      * simpl. constructor; auto. apply Forall_forall. intros x I. apply in_map_iff in I as (l & <- & I).
        rewrite Forall_forall in D. apply D in I. lia.
      * intros x [<-|I].
        -- right. eexists; split; [left; reflexivity|]. simpl; lia.
        -- right. destruct (G x I) as [L|(l & Il & L)].
           ++ eexists; split; [left; reflexivity|]. simpl; lia.
           ++ exists l. split; [right|]; auto.
Qed.

(* ---- split ---- *)
Lemma item_spec : forall d s a r, item d s = (a, r) -> ~ In d a /\ ((s = a /\ r = []) \/ s = a ++ d :: r).
Proof.
  induction s as [|c s IH]; simpl; intros a r E.
  - injection E as <- <-. split; auto.
  - destruct (Ascii.eqb_spec c d).
    + injection E as <- <-. subst. split; auto.
    + destruct (item d s) as [a' r'] eqn:I. injection E as <- <-.
      destruct (IH _ _ eq_refl) as [N [[-> ->]| ->]]; (split; [intros [?|?]; [congruence|auto]|]); auto.
Qed.
Lemma item_shorter : forall d s a r, s <> [] -> item d s = (a, r) -> (length r < length s)%nat.
Proof.
  intros d s a r N E. destruct (item_spec _ _ _ _ E) as [_ [[-> ->]| ->]].
  - destruct a; [congruence|simpl; lia].
  - rewrite app_length; simpl; lia.
Qed.
Lemma loop_keep : forall fuel d s, (length s < fuel)%nat -> exists l, split_loop fuel d false s = Some l /\
  Forall (fun a => ~ In d a) l /\ (s = [] <-> l = []) /\
  (join d l = s \/ join d l ++ [d] = s).
Proof.
  induction fuel as [|k IH]; intros d s L; [lia|]. simpl. destruct s as [|c s].
  - exists []. simpl. repeat split; auto.
  - cbn [getline]. destruct (item d (c :: s)) as [a r] eqn:E.
    assert (S : (length r < length (c :: s))%nat) by (eapply item_shorter; eauto; discriminate).
    destruct (IH d r) as (l & El & Fl & Nl & Jl); [lia|]. rewrite El.
    exists (a :: l). split; [reflexivity|]. destruct (item_spec _ _ _ _ E) as [Na Q].
    split; [constructor; auto|]. split; [split; discriminate|].
    destruct l as [|b l].
    + assert (r = []) by (apply Nl; auto). subst r. simpl. destruct Q as [[Q _]|Q]; rewrite Q; auto.
    + assert (r <> []) by (intro X; apply Nl in X; discriminate).
      destruct Q as [[_ Q]|Q]; [contradiction|]. rewrite Q.
      change (join d (a :: b :: l)) with (a ++ d :: join d (b :: l)).
      destruct Jl as [J|J]; [left|right]; rewrite <- J; [reflexivity|]. now rewrite <- app_assoc.
Qed.
Lemma loop_remove : forall fuel d s l, split_loop fuel d false s = Some l ->
  split_loop fuel d true s = Some (filter nonempty l).
Proof.
  induction fuel as [|k IH]; intros d s l E; [discriminate|]. simpl in *.
  destruct (getline d s) as [[a r]|]; [|now injection E as <-].
  destruct (split_loop k d false r) as [l'|] eqn:R; [|discriminate]. injection E as <-.
  rewrite (IH _ _ _ R). destruct a; reflexivity.
Qed.

(* ---- the timer ---- *)
Lemma delta_throw : forall tv i, timer_delta tv i = Throw <-> (i < 0 \/ Z.of_nat (length tv) - 2 < i).
Proof.
  intros tv i. unfold timer_delta.
  destruct (Z.of_nat (length tv) - 2 <? i) eqn:A; simpl.
  - apply Z.ltb_lt in A. split; auto.
  - apply Z.ltb_ge in A. destruct (i <? 0) eqn:B.
    + apply Z.ltb_lt in B. split; auto.
    + apply Z.ltb_ge in B. split; [|lia]. destruct (nth_error tv _); [destruct (nth_error tv _)|]; discriminate.
Qed.
Lemma delta_ok : forall tv i, 0 <= i -> i + 1 < Z.of_nat (length tv) -> exists t0 t1,
  nth_error tv (Z.to_nat i) = Some t0 /\ nth_error tv (S (Z.to_nat i)) = Some t1 /\ timer_delta tv i = Ok (t1 - t0)%Q.
Proof.
  intros tv i H0 H1. unfold timer_delta.
  replace (Z.of_nat (length tv) - 2 <? i) with false by (symmetry; apply Z.ltb_ge; lia).
  replace (i <? 0) with false by (symmetry; apply Z.ltb_ge; lia). simpl.
  replace (Z.to_nat (i + 1)) with (S (Z.to_nat i)) by lia.
  destruct (nth_error tv (S (Z.to_nat i))) as [t1|] eqn:A; [|apply nth_error_None in A; lia].
  destruct (nth_error tv (Z.to_nat i)) as [t0|] eqn:B; [|apply nth_error_None in B; lia].
  exists t0, t1. auto.
Qed.
