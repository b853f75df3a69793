(* The readers of a domain in a consistent state. *)
From Coq Require Import Lia Sorting.Sorted Sorting.Permutation.
From Verif Require Import Base BdryModel AdvanceModel LoopModel QLayerModel DomCheckModel EditModel EditSpec EditProofs.
From Verif Require AdvanceProofs.
Open Scope nat_scope.

(* the edges as other parts of the development see them: a list without pointers *)
Definition plain (s : dom) (k : nat) : bedge := match d_ends s k with Some (a, b) => BE k a b 0%Z 0%N | None => BE k 0 0 0%Z 0%N end.
Definition plain_list (s : dom) (l : elst) : list bedge := map (plain s) (l_items l).
Lemma plain_id s k : be_id (plain s k) = k.
Proof. unfold plain. destruct (d_ends s k) as [[a b]|]; reflexivity. Qed.

Definition leads (s : dom) (e v k : nat) : bool :=
  negb (Nat.eqb k e) && Nat.eqb (d_home s k) (d_home s e) && match d_ends s k with Some (a, _) => Nat.eqb a v | None => false end.
Lemma first_next_find s e v es : intact s -> (forall k, In k es -> listed s k) -> first_next s e v es = Ok (find (leads s e v) es).
Proof.
  intros P. induction es as [|k r IH]; intros H; [reflexivity|]. cbn [first_next find]. unfold leads at 1. assert (T := H k (or_introl eq_refl)). specialize (IH (fun j J => H j (or_intror J))).
  destruct (Nat.eqb k e); [exact IH|]. rewrite (listed_alloc s k T). cbn [negb andb]. destruct (Nat.eqb (d_home s k) (d_home s e)); [|exact IH]. cbn [negb andb].
  destruct (in_ends s P k T) as [a [b [E _]]]. rewrite E. destruct (Nat.eqb a v); [reflexivity|exact IH].
Qed.
Lemma find_least f es x : StronglySorted le es -> find f es = Some x -> In x es /\ f x = true /\ forall y, In y es -> f y = true -> x <= y.
Proof.
  induction es as [|k r IH]; intros S E; [discriminate|]. apply StronglySorted_inv in S. destruct S as [S F]. cbn in E. destruct (f k) eqn:K.
  - injection E as <-. split; [left; reflexivity|]. split; [exact K|]. intros y [<-|Y] _; [lia|]. rewrite Forall_forall in F. apply F, Y.
  - destruct (IH S E) as [I [X L]]. split; [right; exact I|]. split; [exact X|]. intros y [<-|Y] T; [congruence|apply L; assumption].
Qed.
Lemma ids_unique s l m : sound s -> In l (lists s) -> In m (lists s) -> l_id l = l_id m -> l = m.
Proof.
  intros S L M E. assert (N := so_ids s S). revert L M N. induction (lists s) as [|x r IH]; [intros []|]. cbn. intros [->|L] [->|M] N; apply NoDup_cons_iff in N; destruct N as [N1 N2]; auto.
  - exfalso. apply N1. rewrite E. apply in_map, M.
  - exfalso. apply N1. rewrite <- E. apply in_map, L.
Qed.
Lemma next_plain s l e : sound s -> stands_in s l e -> exists o, next_edge s e = Ok o /\ option_map (plain s) o = get_next_edge (plain_list s l) (plain s e) /\ (forall f, o = Some f -> stands_in s l f).
Proof.
  intros S T. assert (P := so_intact s S). assert (T' : listed s e) by (exists l; exact T). destruct (in_ends s P e T') as [a [b [E [IA IB]]]]. unfold next_edge. rewrite E, (verts_alloc s b IB).
  rewrite (first_next_find s e b _ P (fun k => in_only s P b k IB)). eexists. split; [reflexivity|].
  assert (SO := so_sorted s S b IB).
  assert (PE : plain s e = BE e a b 0%Z 0%N) by (unfold plain; rewrite E; reflexivity).
  assert (IN : forall k, In k (d_star s b) -> leads s e b k = true -> In k (l_items l)).
  { intros k K L. unfold leads in L. apply andb_true_iff in L. destruct L as [L _]. apply andb_true_iff in L. destruct L as [_ L]. apply Nat.eqb_eq in L.
    destruct (in_only s P b k IB K) as [m M]. rewrite (in_home s P m k M), (in_home s P l e T) in L. rewrite <- (ids_unique s m l S (proj1 M) (proj1 T) L). apply M. }
  assert (FI : forall f, In f (filter (fun f => Nat.eqb (be_v1 f) (be_v2 (plain s e)) && negb (Nat.eqb (be_id f) (be_id (plain s e)))) (plain_list s l)) -> exists k, f = plain s k /\ In k (l_items l) /\ In k (d_star s b) /\ leads s e b k = true).
  { intros f F. apply filter_In in F. destruct F as [F C]. unfold plain_list in F. apply in_map_iff in F. destruct F as [k [<- K]]. exists k. split; [reflexivity|]. split; [exact K|]. rewrite PE, plain_id in C. cbn [be_v2 be_id] in C.
    assert (M : stands_in s l k) by (split; [exact (proj1 T)|exact K]). assert (M' : listed s k) by (exists l; exact M). destruct (in_ends s P k M') as [c [d [Ek _]]]. unfold plain in C. rewrite Ek in C. cbn [be_v1] in C. apply andb_true_iff in C. destruct C as [C1 C2]. split.
    - apply (count_occ_In Nat.eq_dec). rewrite (in_star s P b k c d IB M' Ek). unfold at_end. rewrite C1. lia.
    - unfold leads. rewrite C2, (in_home s P l k M), (in_home s P l e T), Nat.eqb_refl, Ek. exact C1. }
  split.
  - unfold get_next_edge. match goal with |- _ = oldest ?q => set (fl := q) in * end. destruct (oldest fl) as [f|] eqn:O.
    + destruct (FI f (AdvanceProofs.oldest_in _ _ O)) as [k [-> [K1 [K2 K3]]]]. destruct (find (leads s e b) (d_star s b)) as [x|] eqn:F.
      * destruct (find_least _ _ _ SO F) as [X1 [X2 X3]]. cbn. f_equal. f_equal. apply Nat.le_antisymm; [apply X3; assumption|]. assert (Z := AdvanceProofs.oldest_least _ _ O (plain s x)). rewrite !plain_id in Z. apply Z. unfold fl. apply filter_In.
        split; [apply in_map, IN; assumption|]. rewrite PE. cbn [be_v2 be_id]. rewrite plain_id. unfold leads in X2. apply andb_true_iff in X2. destruct X2 as [X2 X4]. apply andb_true_iff in X2. destruct X2 as [X2 _]. unfold plain. destruct (d_ends s x) as [[c d]|]; [|discriminate X4]. cbn [be_v1]. rewrite X4, X2. reflexivity.
      * exfalso. assert (Z := find_none _ _ F k K2). congruence.
    + destruct (find (leads s e b) (d_star s b)) as [x|] eqn:F; [|reflexivity]. exfalso. destruct (find_least _ _ _ SO F) as [X1 [X2 X3]]. apply AdvanceProofs.oldest_none in O.
      assert (Z : In (plain s x) fl); [|rewrite O in Z; destruct Z]. unfold fl. apply filter_In. split; [apply in_map, IN; assumption|]. rewrite PE. cbn [be_v2 be_id]. rewrite plain_id. unfold leads in X2. apply andb_true_iff in X2. destruct X2 as [X2 X4]. apply andb_true_iff in X2. destruct X2 as [X2 _]. unfold plain. destruct (d_ends s x) as [[c d]|]; [|discriminate X4]. cbn [be_v1]. rewrite X4, X2. reflexivity.
  - intros f F. destruct (find_least _ _ _ SO F) as [X1 [X2 _]]. split; [exact (proj1 T)|apply IN; assumption].
Qed.
Lemma walk_plain s l stop : sound s -> forall n e, stands_in s l e -> walk n s e stop = Ok (reaches n (plain_list s l) (plain s e) (plain s stop)).
Proof.
  intros S. induction n as [|n IH]; intros e T; [reflexivity|]. cbn [walk reaches]. destruct (next_plain s l e S T) as [o [E [N F]]]. rewrite E. cbn [obind]. rewrite <- N. destruct o as [f|]; [|reflexivity]. cbn [option_map].
  rewrite !plain_id. destruct (Nat.eqb f stop); [reflexivity|]. apply IH, F. reflexivity.
Qed.
Lemma check_plain s bs : sound s -> (forall b, In b bs -> In b (lists s)) -> check_boundaries s bs = all_traversable (map (fun b => VB EXTERIOR (plain_list s b)) bs).
Proof.
  intros S. induction bs as [|b r IH]; intros H; [reflexivity|]. cbn [check_boundaries map all_traversable vb_edges]. assert (B := H b (or_introl eq_refl)). unfold plain_list at 1. destruct (l_items b) as [|e q] eqn:I; [reflexivity|]. cbn [map].
  assert (T : stands_in s b e) by (split; [exact B|rewrite I; left; reflexivity]). rewrite (walk_plain s b e S _ e T). cbn [obind]. unfold is_traversable, plain_list. rewrite map_length, I. cbn [map].
  match goal with |- (if ?x then _ else _) = (if ?y then _ else _) => change y with x; destruct x end; [|reflexivity]. apply IH. intros c C. apply H. right. exact C.
Qed.
Lemma fixed_read s vs : (forall v, In v vs -> In v (d_verts s)) -> lone_fixed s vs = Ok (filter (fun v => d_vfixed s v && match d_star s v with [] => true | _ => false end) vs).
Proof.
  induction vs as [|v r IH]; intros H; [reflexivity|]. cbn [lone_fixed filter]. rewrite (verts_alloc s v (H v (or_introl eq_refl))). cbn [negb]. rewrite (IH (fun w W => H w (or_intror W))). cbn [obind]. f_equal.
  destruct (d_vfixed s v); [|reflexivity]. cbn [negb andb]. destruct (d_star s v); reflexivity.
Qed.

(* ---------- decisions for examples ---------- *)
Definition listedb (s : dom) (k : nat) : bool := member k (all_items (lists s)).
Definition unusedb (s : dom) (v : nat) : bool :=
  forallb (fun k => match d_ends s k with Some (a, b) => negb (Nat.eqb a v) && negb (Nat.eqb b v) | None => true end) (all_items (lists s)).
Definition namedb (s : dom) (o : edit) : bool :=
  match o with
  | AddVertex _ | AddFixedVertex _ | ClearVertices => true
  | RemoveVertex v => member v (d_verts s)
  | RemoveFixedVertex v => member v (d_fverts s)
  | InsertBoundary p => p <=? length (d_bdrys s)
  | RemoveBoundary p | ClearEdges p => p <? length (d_bdrys s)
  | AddEdge p a b _ => (p <? length (d_bdrys s)) && (member a (d_verts s) && member b (d_verts s))
  | RemoveEdge p e => (p <? length (d_bdrys s)) && listedb s e
  | AddFixedEdge a b _ => member a (d_verts s) && member b (d_verts s)
  | RemoveFixedEdge e => listedb s e
  end.
Definition gentleb (s : dom) (o : edit) : bool :=
  match o with
  | RemoveVertex v => unusedb s v && negb (member v (d_fverts s))
  | RemoveFixedVertex v => unusedb s v
  | RemoveBoundary p => match nth_error (d_bdrys s) p with Some l => match l_items l with [] => true | _ => false end | None => true end
  | _ => true
  end.
Fixpoint historyb (ok : dom -> edit -> bool) (s : dom) (os : list edit) : bool :=
  match os with
  | [] => true
  | o :: r => ok s o && match step s o with Ok s' => historyb ok s' r | _ => true end
  end.
Lemma namedb_named s o : namedb s o = true -> named s o.
Proof.
  destruct o; cbn [namedb named]; rewrite ?andb_true_iff, ?Nat.ltb_lt, ?Nat.leb_le, ?member_in; unfold listedb; rewrite ?member_in, ?listed_all; tauto.
Qed.
Lemma unusedb_unused s v : unusedb s v = true -> unused s v.
Proof. intros H k a b K E. unfold unusedb in H. rewrite forallb_forall in H. apply listed_all in K. specialize (H k K). rewrite E in H. apply andb_true_iff in H. rewrite !negb_true_iff, !Nat.eqb_neq in H. exact H. Qed.
Lemma gentleb_gentle s o : gentleb s o = true -> gentle s o.
Proof.
  destruct o; cbn [gentleb gentle]; try tauto.
  - rewrite andb_true_iff, negb_true_iff, member_out. intros [U F]. split; [apply unusedb_unused, U|exact F].
  - apply unusedb_unused.
  - intros H l E. rewrite E in H. destruct (l_items l); [reflexivity|discriminate H].
Qed.
Lemma historyb_history (ok : dom -> edit -> Prop) (okb : dom -> edit -> bool) : (forall s o, okb s o = true -> ok s o) -> forall os s, historyb okb s os = true -> history ok s os.
Proof.
  intros R. induction os as [|o r IH]; intros s H; [exact I|]. cbn in H. apply andb_true_iff in H. destruct H as [H1 H2]. split; [apply R, H1|]. intros s' E. rewrite E in H2. apply IH, H2.
Qed.
Definition carefulb (s : dom) (o : edit) : bool := namedb s o && gentleb s o.
Lemma carefulb_careful s o : carefulb s o = true -> careful s o.
Proof. unfold carefulb. rewrite andb_true_iff. intros [A B]. split; [apply namedb_named, A|apply gentleb_gentle, B]. Qed.
