(* The effect of the operations on the lists of a domain. *)
From Coq Require Import Lia Sorting.Permutation.
From Verif Require Import Base EditModel EditSpec EditProofs.
Open Scope nat_scope.

Lemma drop_without k l : drop k l = without k l.
Proof. unfold drop, without. induction l as [|x r IH]; [reflexivity|]. cbn. destruct (Nat.eq_dec k x) as [->|N]; [rewrite Nat.eqb_refl; exact IH|]. destruct (Nat.eqb_spec x k); [congruence|]. cbn. f_equal. exact IH. Qed.
Lemma insert_split {A} p (x : A) l : insert_nth p x l = firstn p l ++ x :: skipn p l.
Proof. revert l. induction p as [|p IH]; intros [|y r]; try reflexivity. cbn. f_equal. apply IH. Qed.
Lemma delete_split {A} p (l : list A) : delete_nth p l = firstn p l ++ skipn (S p) l.
Proof. revert p. induction l as [|y r IH]; intros [|p]; try reflexivity. cbn. f_equal. apply IH. Qed.
Lemma change_ext {A} (f g : A -> A) l p : (forall x, nth_error l p = Some x -> f x = g x) -> change_nth p f l = change_nth p g l.
Proof. revert p. induction l as [|y r IH]; intros [|p] H; try reflexivity; cbn; f_equal; [apply H; reflexivity|apply IH, H]. Qed.
Lemma change_same {A} (f : A -> A) l p : (forall x, nth_error l p = Some x -> f x = x) -> change_nth p f l = l.
Proof. revert p. induction l as [|y r IH]; intros [|p] H; try reflexivity; cbn; f_equal; [apply H; reflexivity|apply IH, H]. Qed.
Lemma change_change {A} (f g : A -> A) l p : change_nth p g (change_nth p f l) = change_nth p (fun x => g (f x)) l.
Proof. revert p. induction l as [|y r IH]; intros [|p]; try reflexivity; cbn; f_equal. apply IH. Qed.
Lemma nth_change {A} (f : A -> A) l p : nth_error (change_nth p f l) p = option_map f (nth_error l p).
Proof. revert p. induction l as [|y r IH]; intros [|p]; try reflexivity; cbn. apply IH. Qed.
Lemma map_change ls p l l' : NoDup (map l_id ls) -> nth_error ls p = Some l -> l_id l' = l_id l ->
  map l_items (map (fun b => if Nat.eqb (l_id b) (l_id l') then l' else b) ls) = change_nth p (fun _ => l_items l') (map l_items ls).
Proof.
  revert p. induction ls as [|b r IH]; intros [|p] N P I; try discriminate; cbn [map change_nth] in *; apply NoDup_cons_iff in N; destruct N as [N1 N2].
  - injection P as ->. assert (Q : Nat.eqb (l_id l) (l_id l') = true) by (rewrite I; apply Nat.eqb_refl). rewrite Q. f_equal. rewrite <- I in N1. rewrite map_other by exact N1. reflexivity.
  - destruct (Nat.eqb_spec (l_id b) (l_id l')) as [E|E]; [exfalso; apply N1; rewrite E, I; apply in_map; eapply nth_error_In; eauto|]. f_equal. apply IH; assumption.
Qed.
(* a boundary list is replaced *)
Lemma set_view s p l l' : NoDup (map l_id (lists s)) -> nth_error (d_bdrys s) p = Some l -> l_id l' = l_id l ->
  view_of (set_list s l') = View (d_verts s) (change_nth p (fun _ => l_items l') (map l_items (d_bdrys s))) (l_items (d_fedges s)) (d_fverts s).
Proof.
  intros N P I. assert (X := bdrys_set s l' l N (nth_lists s p l P) I). unfold view_of. rewrite X. destruct (set_same s l') as (Ev&_&Ef&_). rewrite Ev, Ef. unfold lists in N. cbn [map] in N. apply NoDup_cons_iff in N. destruct N as [N1 N2].
  rewrite (map_change _ p l l' N2 P I). f_equal. unfold set_list. destruct (Nat.eqb_spec (l_id l') (l_id (d_fedges s))) as [E|E]; [|reflexivity]. exfalso. apply N1. rewrite <- E, I. apply in_map. eapply nth_error_In; eauto.
Qed.
Lemma set_view_fixed s l' : l_id l' = l_id (d_fedges s) -> view_of (set_list s l') = View (d_verts s) (map l_items (d_bdrys s)) (l_items l') (d_fverts s).
Proof. intros I. unfold view_of, set_list. rewrite I, Nat.eqb_refl. reflexivity. Qed.
Lemma nth_items s p l x : nth_error (d_bdrys s) p = Some l -> nth_error (map l_items (d_bdrys s)) p = Some x -> x = l_items l.
Proof. intros P E. rewrite nth_error_map, P in E. cbn in E. congruence. Qed.

Lemma remove_case s l e s' : list_remove s l e = Ok s' -> (d_etree s e = true /\ In e (l_items l) /\ exists st en, s' = set_list (Dom (d_verts s) (d_vwaste s) (d_bdrys s) (d_fverts s) (d_fedges s) st (d_vtree s) (d_vfixed s)
                      en (d_home s) (upd (d_etree s) e false) (d_next s)) (ELst (l_id l) (drop e (l_items l)) (l_waste l ++ [e]))) \/
   (s' = s /\ (d_etree s e = false \/ ~ In e (l_items l))).
Proof.
  unfold list_remove. destruct (negb (e_alloc s e)); [discriminate|]. destruct (member e (l_items l)) eqn:M; [|intros E; injection E as <-; right; split; [reflexivity|right; apply member_out, M]].
  destruct (d_etree s e) eqn:T; [|intros E; injection E as <-; right; auto]. cbn [andb]. destruct (d_ends s e) as [[a b]|]; [|discriminate]. destruct (negb (v_alloc s a && v_alloc s b)); [discriminate|]. intros E. assert (E' : forall x y : dom, Ok x = Ok y -> x = y) by congruence. apply E' in E. left. split; [reflexivity|]. split; [apply member_in, M|].
  eexists. eexists. symmetry. exact E.
Qed.
Lemma without_out e l : ~ In e l -> without e l = l.
Proof. rewrite <- drop_without. apply drop_out. Qed.
Lemma remove_view s p l e s' : NoDup (map l_id (lists s)) -> nth_error (d_bdrys s) p = Some l -> list_remove s l e = Ok s' ->
  view_of s' = effect (d_vtree s) (d_etree s) (d_next s) (view_of s) (RemoveEdge p e) /\ (forall k, k <> e -> d_etree s' k = d_etree s k).
Proof.
  intros N P E. apply remove_case in E. cbn [effect view_of]. destruct E as [[T [I [st [en ->]]]]|[-> C]].
  - rewrite T. split.
    + rewrite (set_view _ p l); [|exact N|exact P|reflexivity]. cbn [d_verts d_bdrys d_fedges d_fverts l_items]. f_equal. apply change_ext. intros x X. rewrite (nth_items s p l x P X). apply drop_without.
    + intros k K. match goal with |- d_etree (set_list ?a ?b) k = _ => destruct (set_same a b) as (_&_&_&_&_&_&_&_&Et&_) end. rewrite Et. cbn. apply upd_other, K.
  - split; [|reflexivity]. unfold view_of. f_equal. destruct C as [C|C]; [rewrite C; reflexivity|]. destruct (d_etree s e); [|reflexivity]. symmetry. apply change_same. intros x X. rewrite (nth_items s p l x P X). apply without_out, C.
Qed.
Fixpoint cut_n (n : nat) (f : nat -> bool) (l : list nat) : list nat :=
  match n, l with S m, x :: r => if f x then cut_n m f r else l | _, _ => l end.
Lemma cut_n_all f l n : length l <= n -> cut_n n f l = cut_while f l.
Proof. revert n. induction l as [|x r IH]; intros [|n] H; try reflexivity; cbn in *; [lia|]. destruct (f x); [apply IH; lia|reflexivity]. Qed.
Lemma cut_n_ext f g l n : (forall x, In x l -> f x = g x) -> cut_n n f l = cut_n n g l.
Proof. revert n. induction l as [|x r IH]; intros [|n] H; try reflexivity; cbn. rewrite (H x (or_introl eq_refl)). destruct (g x); [apply IH; intros y Y; apply H; right; exact Y|reflexivity]. Qed.
Lemma cut_n_stuck f x r n : f x = false -> cut_n n f (x :: r) = x :: r.
Proof. intros H. destruct n; cbn; [reflexivity|]. rewrite H. reflexivity. Qed.
Lemma items_nodup s l : sound s -> In l (lists s) -> NoDup (l_items l).
Proof.
  intros S L. assert (ND := so_items s S). destruct (in_split _ _ L) as [X [Y EL]]. rewrite EL in ND. unfold all_items in ND. rewrite flat_map_app in ND. apply nodup_right in ND. cbn in ND. clear -ND. induction (l_items l) as [|x r IH]; [constructor|]. cbn in ND. apply NoDup_cons_iff in ND. destruct ND as [A B]. constructor; [intros J; apply A, in_or_app; auto|apply IH, B].
Qed.
Lemma remove_first_view n : forall s p l s', sound s -> nth_error (d_bdrys s) p = Some l -> n <= length (l_items l) -> remove_first n s p = Ok s' ->
  view_of s' = View (d_verts s) (change_nth p (cut_n n (d_etree s)) (map l_items (d_bdrys s))) (l_items (d_fedges s)) (d_fverts s).
Proof.
  induction n as [|n IH]; intros s p l s' S P N E.
  - cbn in E. injection E as <-. unfold view_of. f_equal. symmetry. apply change_same. intros [|x r] _; reflexivity.
  - cbn [remove_first] in E. rewrite P in E. destruct (l_items l) as [|e r] eqn:I; [discriminate|]. assert (L := nth_lists s p l P). assert (ND := items_nodup s l S L). rewrite I in ND. apply NoDup_cons_iff in ND. destruct ND as [ND _].
    assert (T : listed s e) by (exists l; split; [exact L|rewrite I; left; reflexivity]). destruct (remove_sound s l e S L T) as [s1 [E1 [S1 [B1 _]]]]. rewrite E1 in E. cbn [obind] in E.
    destruct (remove_view s p l e s1 (so_ids s S) P E1) as [V1 T1]. destruct (B1 p l P) as [l1 [P1 [_ I1]]]. rewrite Nat.eqb_refl in I1. cbn [andb] in I1. rewrite I in I1.
    assert (DR : drop e (e :: r) = r) by (unfold drop; cbn; rewrite Nat.eqb_refl; cbn; apply drop_out, ND). rewrite DR in I1.
    rewrite (IH s1 p l1 s' S1 P1) by (try exact E; rewrite I1; cbn in N; destruct (d_etree s e); cbn; lia). unfold effect, view_of in V1. injection V1 as V1 V2 V3 V4. rewrite V1, V2, V3, V4. f_equal.
    destruct (d_etree s e) eqn:Te.
    + rewrite change_change. apply change_ext. intros x X. rewrite (nth_items s p l x P X), I. rewrite <- drop_without, DR. cbn [cut_n]. rewrite Te. apply cut_n_ext. intros y Y. apply T1. intros ->. exact (ND Y).
    + apply change_ext. intros x X. rewrite (nth_items s p l x P X), I. rewrite (cut_n_stuck (d_etree s) e r (Datatypes.S n) Te).
      destruct (list_remove s l e) as [s3| |] eqn:E3; try discriminate. assert (s3 = s1) by congruence. subst s3. apply remove_case in E3. destruct E3 as [[Q _]|[-> _]]; [congruence|]. apply cut_n_stuck, Te.
Qed.

Lemma step_view s o s' : sound s -> careful s o -> step s o = Ok s' -> view_of s' = effect (d_vtree s) (d_etree s) (d_next s) (view_of s) o.
Proof.
  intros S [N G] E. destruct o as [t|t|v|v|p|p|p a b t|p e|p|a b t|e|]; cbn [step named gentle] in *.
  - injection E as <-. reflexivity.
  - injection E as <-. reflexivity.
  - unfold remove_vertex in E. rewrite (vertices_remove_ok s v N) in E. injection E as <-. cbn. rewrite <- drop_without. destruct (d_vtree s v); reflexivity.
  - unfold remove_fixed_vertex in E. rewrite vertices_remove_ok in E by (apply (in_fixed s (so_intact s S)), N). injection E as <-. cbn. rewrite <- !drop_without. destruct (d_vtree s v); reflexivity.
  - unfold insert_boundary in E. destruct (length (d_bdrys s) <? p); [discriminate|]. injection E as <-. unfold view_of, effect. cbn [d_verts d_bdrys d_fedges d_fverts]. rewrite insert_split, map_app, firstn_map, skipn_map. reflexivity.
  - unfold remove_boundary in E. destruct (p <? length (d_bdrys s)); [|discriminate]. injection E as <-. unfold view_of, effect. cbn [d_verts d_bdrys d_fedges d_fverts]. rewrite delete_split, map_app, firstn_map, skipn_map. reflexivity.
  - unfold add_edge in E. destruct (nth_error (d_bdrys s) p) as [l|] eqn:P; [|discriminate]. destruct N as [_ [IA IB]]. destruct (in_split _ _ (nth_lists s p l P)) as [A [B EL]]. rewrite (push_ok s l A B a b t S EL IA IB true) in E.
    assert (E' : forall x y : dom, Ok x = Ok y -> x = y) by congruence. apply E' in E. rewrite <- E. rewrite (set_view _ p l); [|exact (so_ids s S)|exact P|reflexivity]. cbn [d_verts d_bdrys d_fedges d_fverts l_items effect view_of]. f_equal.
    apply change_ext. intros x X. rewrite (nth_items s p l x P X). reflexivity.
  - unfold remove_edge in E. destruct (nth_error (d_bdrys s) p) as [l|] eqn:P; [|discriminate]. exact (proj1 (remove_view s p l e s' (so_ids s S) P E)).
  - unfold clear_edges in E. destruct (nth_error (d_bdrys s) p) as [l|] eqn:P; [|discriminate]. destruct (remove_first_sound (length (l_items l)) s p l S P (le_n _)) as [s1 [l1 [E1 [S1 [P1 _]]]]]. assert (V1 := remove_first_view _ s p l s1 S P (le_n _) E1). rewrite E1 in E. cbn [obind] in E. rewrite P1 in E.
    injection E as <-. unfold clear_list. rewrite (set_view s1 p l1); [|exact (so_ids s1 S1)|exact P1|reflexivity]. cbn [l_items]. unfold view_of in V1. injection V1 as V1 V2 V3 V4. rewrite V1, V3, V4. cbn [effect view_of]. f_equal.
    rewrite (change_same (fun _ => l_items l1)) by (intros x X; symmetry; exact (nth_items s1 p l1 x P1 X)). rewrite V2. apply change_ext. intros x X. rewrite (nth_items s p l x P X). apply cut_n_all. lia.
  - unfold add_fixed_edge in E. destruct N as [IA IB]. rewrite (push_ok s (d_fedges s) [] (d_bdrys s) a b t S eq_refl IA IB false) in E. assert (E' : forall x y : dom, Ok x = Ok y -> x = y) by congruence. apply E' in E. rewrite <- E. rewrite set_view_fixed by reflexivity. reflexivity.
  - unfold remove_fixed_edge in E. apply remove_case in E. cbn [effect view_of]. destruct E as [[T [I [st [en ->]]]]|[-> C]].
    + rewrite T, set_view_fixed by reflexivity. cbn [d_verts d_bdrys d_fverts l_items]. rewrite drop_without. reflexivity.
    + unfold view_of. f_equal. destruct C as [C|C]; [rewrite C; reflexivity|]. destruct (d_etree s e); [|reflexivity]. symmetry. apply without_out, C.
  - injection E as <-. reflexivity.
Qed.
(* the ends of an edge *)
Lemma remove_ends s l e s' : list_remove s l e = Ok s' -> forall k, k <> e -> d_ends s' k = d_ends s k.
Proof.
  unfold list_remove. destruct (negb (e_alloc s e)); [discriminate|]. destruct (member e (l_items l) && d_etree s e); [|intros E; injection E as <-; reflexivity]. destruct (d_ends s e) as [[a b]|] eqn:D; [|discriminate]. destruct (negb (v_alloc s a && v_alloc s b)); [discriminate|].
  intros E k K. assert (E' : forall x y : dom, Ok x = Ok y -> x = y) by congruence. apply E' in E. rewrite <- E. match goal with |- d_ends (set_list ?x ?y) k = _ => destruct (set_same x y) as (_&_&_&_&_&_&Ee&_) end. rewrite Ee. cbn. apply upd_other, K.
Qed.
Lemma remove_gone s l e s' : sound s -> stands_in s l e -> list_remove s l e = Ok s' -> d_ends s' e = d_ends s e \/ ~ listed s' e.
Proof.
  intros S T E. destruct (d_etree s e) eqn:Te; [right|left; apply remove_case in E; destruct E as [[Q _]|[-> _]]; [congruence|reflexivity]].
  destruct (in_split _ _ (proj1 T)) as [A [B EL]]. destruct (in_ends s (so_intact s S) e (ex_intro _ l T)) as [a [b [D _]]]. rewrite (rem_ok s l A B e a b S EL (proj2 T) D Te) in E. assert (E' : forall x y : dom, Ok x = Ok y -> x = y) by congruence. apply E' in E. rewrite <- E.
  intros L. apply (rem_listed s l A B e a b S EL (proj2 T)) in L. apply (proj2 L). reflexivity.
Qed.
Lemma list_remove_keeps s l e s' : sound s -> In l (lists s) -> listed s e -> list_remove s l e = Ok s' -> forall k, listed s' k -> listed s k /\ d_ends s' k = d_ends s k.
Proof.
  intros S L T E k K. assert (LI : listed s k).
  { assert (E0 := E). apply remove_case in E. destruct E as [[Te [I [st [en ->]]]]|[-> _]]; [|exact K]. destruct (in_split _ _ L) as [A [B EL]]. destruct K as [m [M K]].
    rewrite (lists_set _ _ A l B) in M; [|exact (so_ids s S)|exact EL|reflexivity]. apply in_app_or in M. destruct M as [M|[<-|M]].
    - exists m. split; [rewrite EL; apply in_or_app; auto|exact K].
    - cbn in K. apply drop_in in K. exists l. split; [exact L|apply K].
    - exists m. split; [rewrite EL; apply in_or_app; right; right; exact M|exact K]. }
  split; [exact LI|]. destruct (Nat.eq_dec k e) as [->|N]; [|exact (remove_ends s l e s' E k N)].
  destruct (in_dec Nat.eq_dec e (l_items l)) as [I|I]; [destruct (remove_gone s l e s' S (conj L I) E) as [X|X]; [exact X|contradiction]|]. apply remove_case in E. destruct E as [[_ [Q _]]|[-> _]]; [contradiction|reflexivity].
Qed.
Lemma remove_first_keeps n : forall s p l s', sound s -> nth_error (d_bdrys s) p = Some l -> n <= length (l_items l) -> remove_first n s p = Ok s' -> forall k, listed s' k -> listed s k /\ d_ends s' k = d_ends s k.
Proof.
  induction n as [|n IH]; intros s p l s' S P N E k K; [cbn in E; injection E as <-; auto|]. cbn [remove_first] in E. rewrite P in E. destruct (l_items l) as [|e r] eqn:I; [discriminate|]. assert (L := nth_lists s p l P).
  assert (T : listed s e) by (exists l; split; [exact L|rewrite I; left; reflexivity]). destruct (remove_sound s l e S L T) as [s1 [E1 [S1 [B1 _]]]]. rewrite E1 in E. cbn [obind] in E. destruct (B1 p l P) as [l1 [P1 [_ I1]]].
  assert (LEN : n <= length (l_items l1)). { rewrite I1, I, Nat.eqb_refl. cbn [andb]. cbn in N. destruct (d_etree s e); cbn [length]; [|lia]. assert (ND := items_nodup s l S L). rewrite I in ND. apply NoDup_cons_iff in ND. unfold drop. cbn. rewrite Nat.eqb_refl. cbn. fold (drop e r). rewrite drop_out by apply ND. lia. }
  destruct (IH s1 p l1 s' S1 P1 LEN E k K) as [K1 D1]. destruct (list_remove_keeps s l e s1 S L T E1 k K1) as [K2 D2]. split; [exact K2|congruence].
Qed.
Lemma step_ends s o s' k : sound s -> careful s o -> step s o = Ok s' -> listed s' k ->
  (listed s k /\ d_ends s' k = d_ends s k) \/
  (k = d_next s /\ exists a b, d_ends s' k = Some (a, b) /\ ((exists p t, o = AddEdge p a b t) \/ exists t, o = AddFixedEdge a b t)).
Proof.
  intros S [N G] E K. destruct o as [t|t|v|v|p|p|p a b t|p e|p|a b t|e|]; cbn [step named gentle] in *.
  - injection E as <-. left. split; [exact K|reflexivity].
  - injection E as <-. left. split; [exact K|reflexivity].
  - unfold remove_vertex in E. rewrite (vertices_remove_ok s v N) in E. injection E as <-. left. destruct (d_vtree s v); split; try exact K; reflexivity.
  - unfold remove_fixed_vertex in E. rewrite vertices_remove_ok in E by (apply (in_fixed s (so_intact s S)), N). injection E as <-. cbn [d_vtree] in *. left. destruct (d_vtree s v); split; try exact K; reflexivity.
  - unfold insert_boundary in E. destruct (length (d_bdrys s) <? p); [discriminate|]. injection E as <-. left. split; [|reflexivity]. destruct K as [l [L K]]. unfold lists in L. cbn [d_fedges d_bdrys] in L. exists l. split; [|exact K]. destruct L as [<-|L]; [left; reflexivity|right].
    apply in_app_or in L. rewrite <- (firstn_skipn p (d_bdrys s)). apply in_or_app. destruct L as [L|[<-|L]]; auto. destruct K.
  - unfold remove_boundary in E. destruct (p <? length (d_bdrys s)) eqn:P; [|discriminate]. injection E as <-. left. split; [|reflexivity]. destruct K as [l [L K]]. unfold lists in L. cbn [d_fedges d_bdrys] in L. exists l. split; [|exact K]. destruct L as [<-|L]; [left; reflexivity|right].
    destruct (nth_error (d_bdrys s) p) as [m|] eqn:M; [|apply nth_error_None in M; apply Nat.ltb_lt in P; lia]. rewrite (split_nth _ _ _ M). apply in_app_or in L. apply in_or_app. destruct L as [L|L]; [auto|right; right; exact L].
  - unfold add_edge in E. destruct (nth_error (d_bdrys s) p) as [l|] eqn:P; [|discriminate]. destruct N as [_ [IA IB]]. destruct (in_split _ _ (nth_lists s p l P)) as [A [B EL]]. rewrite (push_ok s l A B a b t S EL IA IB true) in E.
    assert (E' : forall x y : dom, Ok x = Ok y -> x = y) by congruence. apply E' in E. rewrite <- E in *. apply (push_listed s l A B a b t S EL) in K. match goal with |- context [d_ends (set_list ?x ?y)] => destruct (set_same x y) as (_&_&_&_&_&_&Ee&_) end. rewrite Ee. cbn [d_ends].
    destruct K as [K|K]; [right; split; [exact K|]; exists a, b; rewrite K, upd_same; split; [reflexivity|left; eauto]|left; split; [exact K|]]. apply upd_other. intros Z. rewrite Z in K. apply listed_all, (so_lt_e s S) in K. lia.
  - unfold remove_edge in E. destruct (nth_error (d_bdrys s) p) as [l|] eqn:P; [|discriminate]. left. exact (list_remove_keeps s l e s' S (nth_lists s p l P) (proj2 N) E k K).
  - unfold clear_edges in E. destruct (nth_error (d_bdrys s) p) as [l|] eqn:P; [|discriminate]. destruct (remove_first_sound (length (l_items l)) s p l S P (le_n _)) as [s1 [l1 [E1 [S1 [P1 _]]]]]. rewrite E1 in E. cbn [obind] in E. rewrite P1 in E. injection E as <-. left.
    assert (K1 : listed s1 k). { destruct K as [m [M K]]. unfold clear_list in M. destruct (in_split _ _ (nth_lists s1 p l1 P1)) as [A [B EL]]. rewrite (lists_set s1 _ A l1 B (so_ids s1 S1) EL) in M by reflexivity. unfold listed, stands_in. rewrite EL. apply in_app_or in M. destruct M as [M|[<-|M]];
      [exists m; split; [apply in_or_app; auto|exact K]|exists l1; split; [apply in_or_app; right; left; reflexivity|exact K]|exists m; split; [apply in_or_app; right; right; exact M|exact K]]. }
    destruct (remove_first_keeps _ s p l s1 S P (le_n _) E1 k K1) as [K2 D2]. split; [exact K2|]. unfold clear_list. match goal with |- context [d_ends (set_list ?x ?y)] => destruct (set_same x y) as (_&_&_&_&_&_&Ee&_) end. rewrite Ee. exact D2.
  - unfold add_fixed_edge in E. destruct N as [IA IB]. rewrite (push_ok s (d_fedges s) [] (d_bdrys s) a b t S eq_refl IA IB false) in E.
    assert (E' : forall x y : dom, Ok x = Ok y -> x = y) by congruence. apply E' in E. rewrite <- E in *. apply (push_listed s (d_fedges s) [] (d_bdrys s) a b t S eq_refl) in K. match goal with |- context [d_ends (set_list ?x ?y)] => destruct (set_same x y) as (_&_&_&_&_&_&Ee&_) end. rewrite Ee. cbn [d_ends].
    destruct K as [K|K]; [right; split; [exact K|]; exists a, b; rewrite K, upd_same; split; [reflexivity|right; eauto]|left; split; [exact K|]]. apply upd_other. intros Z. rewrite Z in K. apply listed_all, (so_lt_e s S) in K. lia.
  - unfold remove_fixed_edge in E. left. exact (list_remove_keeps s (d_fedges s) e s' S (or_introl eq_refl) N E k K).
  - injection E as <-. left. split; [exact K|reflexivity].
Qed.
