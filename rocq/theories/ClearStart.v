(* Initial fronts that are simple: proofs for ClearProps. *)
From Coq Require Import Lqa Lia Permutation.
From Verif Require Import Base Chain GeomModel GeomSpec GeomProofs UtilModel BdryModel BdrySpec BdryProofs AdvanceModel AdvanceSpec AdvanceProofs AdvanceInv
  FrontModel FrontSpec FrontProofs RefineProofs InitProofs MeshModel WindSpec WindFront ClearSpec ClearGeom.
Open Scope Q_scope.

Lemma on_seg_inj a b s t : ~ veq a b -> veq (on_seg a b s) (on_seg a b t) -> s == t.
Proof.
  intros N [X Y]. unfold on_seg in X, Y. cbn [vx vy] in X, Y.
  destruct (Qeq_dec (vx a) (vx b)) as [E|E].
  - assert (M : ~ vy b - vy a == 0) by (intros Z; apply N; split; [exact E|lra]).
    assert (Z : (s - t) * (vy b - vy a) == 0) by lra. apply Qmult_integral in Z. destruct Z; [lra|contradiction].
  - assert (M : ~ vx b - vx a == 0) by lra.
    assert (Z : (s - t) * (vx b - vx a) == 0) by lra. apply Qmult_integral in Z. destruct Z; [lra|contradiction].
Qed.
Lemma on_seg_part a b l h s : veq (on_seg (on_seg a b l) (on_seg a b h) s) (on_seg a b (l + s * (h - l))).
Proof. unfold veq, on_seg. cbn [vx vy]. split; ring. Qed.

(* a piece of the segment from x to y *)
Definition piece (pos : nat -> vec2) (x y : vec2) (e : bedge) (l h : Q) : Prop :=
  veq (pos (be_v1 e)) (on_seg x y l) /\ veq (pos (be_v2 e)) (on_seg x y h).
Fixpoint pieces (pos : nat -> vec2) (x y : vec2) (lo : Q) (cs : list bedge) (hi : Q) : Prop :=
  match cs with
  | [] => False
  | [c] => lo < hi /\ piece pos x y c lo hi
  | c :: r => exists m, lo < m /\ piece pos x y c lo m /\ pieces pos x y m r hi
  end.

Section Pieces.
Variable pos : nat -> vec2.
Variables x y : vec2.
Hypothesis N : ~ veq x y.

Lemma pieces_lt cs : forall lo hi, pieces pos x y lo cs hi -> lo < hi.
Proof.
  induction cs as [|c r IH]; intros lo hi H; [destruct H|]. destruct r as [|d r]; [apply H|]. destruct H as (m & A & _ & B). specialize (IH _ _ B). lra.
Qed.
Lemma pieces_in cs : forall lo hi c, pieces pos x y lo cs hi -> In c cs -> exists l h, lo <= l /\ l < h /\ h <= hi /\ piece pos x y c l h.
Proof.
  induction cs as [|c r IH]; intros lo hi e H I; [destruct H|]. destruct r as [|d r].
  - destruct I as [<-|[]]. destruct H as [A B]. exists lo, hi. split; [lra|]. split; [exact A|]. split; [lra|exact B].
  - destruct H as (m & A & B & C). assert (L := pieces_lt _ _ _ C). destruct I as [<-|I].
    + exists lo, m. split; [lra|]. split; [exact A|]. split; [lra|exact B].
    + destruct (IH m hi e C I) as (l & h & P1 & P2 & P3 & P4). exists l, h. split; [lra|]. split; [exact P2|]. split; [exact P3|exact P4].
Qed.
Lemma pieces_order cs : forall lo hi, pieces pos x y lo cs hi ->
  ForallOrdPairs (fun c d => exists l h l' h', 0 < h - l /\ 0 < h' - l' /\ h <= l' /\ piece pos x y c l h /\ piece pos x y d l' h') cs.
Proof.
  induction cs as [|c r IH]; intros lo hi H; [constructor|]. destruct r as [|d r]; [repeat constructor|].
  destruct H as (m & A & B & C). constructor; [|exact (IH _ _ C)]. apply Forall_forall. intros e I.
  destruct (pieces_in _ _ _ _ C I) as (l & h & P1 & P2 & P3 & P4). exists lo, m, l, h. split; [lra|]. split; [lra|]. split; [exact P1|]. split; [exact B|exact P4].
Qed.
Lemma pieces_vertex cs : forall lo hi v, pieces pos x y lo cs hi -> on_front cs v -> exists s, lo <= s <= hi /\ veq (pos v) (on_seg x y s).
Proof.
  intros lo hi v H (e & I & E). destruct (pieces_in _ _ _ _ H I) as (l & h & P1 & P2 & P3 & P4 & P5).
  destruct E as [<-|<-]; [exists l|exists h]; (split; [lra|assumption]).
Qed.
Lemma pieces_unique cs : forall lo hi a b u v, pieces pos x y lo cs hi -> route a b cs -> on_front cs u -> on_front cs v -> veq (pos u) (pos v) -> u = v.
Proof.
  induction cs as [|c r IH]; intros lo hi a b u v H R U V E; [destruct H|]. destruct R as [R1 R2].
  assert (K : forall w, on_front (c :: r) w -> (w = be_v1 c /\ veq (pos w) (on_seg x y lo)) \/
    (w = be_v2 c /\ r = [] /\ veq (pos w) (on_seg x y hi)) \/ (on_front r w /\ r <> [])).
  { intros w (e & I & EW). destruct r as [|d r].
    - destruct I as [<-|[]]. destruct H as [_ [H1 H2]]. destruct EW as [<-|<-]; [left; split; [reflexivity|exact H1]|right; left; split; [reflexivity|]; split; [reflexivity|exact H2]].
    - destruct H as (m & _ & [H1 _] & _). destruct I as [<-|I].
      + destruct EW as [<-|<-]; [left; split; [reflexivity|exact H1]|]. right; right. split; [|discriminate]. exists d. split; [left; reflexivity|]. left. apply R2.
      + right; right. split; [|discriminate]. exists e. split; assumption. }
  assert (LO : forall w, (w = be_v2 c /\ r = [] /\ veq (pos w) (on_seg x y hi)) \/ (on_front r w /\ r <> []) -> exists s, lo < s /\ veq (pos w) (on_seg x y s)).
  { intros w [(_ & -> & Q)|(Q & NR)]; [exists hi; split; [apply (pieces_lt _ _ _ H)|exact Q]|]. destruct r as [|d r]; [contradiction|].
    destruct H as (m & A & _ & C). destruct (pieces_vertex _ _ _ _ C Q) as (s & S & Z). exists s. split; [lra|exact Z]. }
  assert (CLASH : forall w z, veq (pos w) (on_seg x y lo) -> (exists s, lo < s /\ veq (pos z) (on_seg x y s)) -> veq (pos w) (pos z) -> False).
  { intros w z A (s & S & B) C. assert (Q : lo == s) by (apply (on_seg_inj x y); [exact N|]; apply (veq_trans _ (pos w)); [apply veq_sym, A|apply (veq_trans _ (pos z)); assumption]). lra. }
  destruct (K u U) as [[U1 U2]|U1]; destruct (K v V) as [[V1 V2]|V1].
  - congruence.
  - exfalso. apply (CLASH u v U2 (LO v V1) E).
  - exfalso. apply (CLASH v u V2 (LO u U1) (veq_sym _ _ E)).
  - destruct U1 as [(U1 & RN & _)|(U1 & RN)], V1 as [(V1 & RN' & _)|(V1 & RN')]; try congruence.
    destruct r as [|d r]; [contradiction|]. destruct H as (m & _ & _ & C). exact (IH m hi _ _ u v C R2 U1 V1 E).
Qed.
Lemma pieces_of_chain cs : forall a b ss lo, route a b cs -> Forall2 (fun s p => veq p (on_seg x y s)) ss (map (fun c => pos (be_v2 c)) (removelast cs)) ->
  length cs = S (length ss) -> increasing lo ss 1 -> veq (pos a) (on_seg x y lo) -> veq (pos b) (on_seg x y 1) -> pieces pos x y lo cs 1.
Proof.
  induction cs as [|c r IH]; intros a b ss lo R F L I A B; [discriminate|]. destruct R as [R1 R2]. destruct r as [|d r].
  - destruct ss; [|discriminate]. cbn in R2. subst. cbn in I. split; [exact I|]. split; assumption.
  - destruct ss as [|s ss]; [discriminate|]. rewrite removelast_cons in F by discriminate. cbn [map] in F. inversion F as [|s' p l l' E F' X Y]. subst. destruct I as [I1 I2].
    exists s. split; [exact I1|]. split; [split; [exact A|exact E]|]. apply (IH (be_v2 c) b ss s R2); try assumption. cbn [length] in L |- *. lia.
Qed.
End Pieces.

(* ---- two pieces share only ends ---- *)
Lemma ends_only_veq a b c d a' b' c' d' : veq a a' -> veq b b' -> veq c c' -> veq d d' -> ends_only a b c d -> ends_only a' b' c' d'.
Proof.
  intros A B C D H s t S T E. apply (H s t S T).
  apply (veq_trans _ (on_seg a' b' s)); [apply on_seg_veq; assumption|]. apply (veq_trans _ (on_seg c' d' t)); [exact E|].
  apply veq_sym, on_seg_veq; assumption.
Qed.
Lemma mul_unit s d : 0 < d -> 0 <= s -> s * d == 0 -> s == 0.
Proof. intros D S E. apply Qmult_integral in E. destruct E; lra. Qed.
Lemma pieces_apart x y l h l' h' : ~ veq x y -> 0 < h - l -> 0 < h' - l' -> h <= l' ->
  ends_only (on_seg x y l) (on_seg x y h) (on_seg x y l') (on_seg x y h').
Proof.
  intros N H H' L s t S T E.
  assert (Q : l + s * (h - l) == l' + t * (h' - l')).
  { apply (on_seg_inj x y); [exact N|]. apply (veq_trans _ (on_seg (on_seg x y l) (on_seg x y h) s)); [apply veq_sym, on_seg_part|].
    apply (veq_trans _ _ _ E), on_seg_part. }
  assert (S1 : 0 <= (1 - s) * (h - l)) by (apply Qmult_le_0_compat; lra).
  assert (T1 : 0 <= t * (h' - l')) by (apply Qmult_le_0_compat; lra).
  assert (Z1 : (1 - s) * (h - l) == 0) by lra. assert (Z2 : t * (h' - l') == 0) by lra.
  assert (1 - s == 0) by (apply (mul_unit _ (h - l)); lra). assert (t == 0) by (apply (mul_unit _ (h' - l')); lra).
  split; [right|left]; lra.
Qed.
Lemma at_end l h s : 0 <= l -> l < h -> h <= 1 -> 0 <= s <= 1 -> (l + s * (h - l) == 0 \/ l + s * (h - l) == 1) -> s == 0 \/ s == 1.
Proof.
  intros L H U S [E|E].
  - left. assert (0 <= s * (h - l)) by (apply Qmult_le_0_compat; lra). apply (mul_unit _ (h - l)); lra.
  - right. assert (0 <= (1 - s) * (h - l)) by (apply Qmult_le_0_compat; lra). assert (1 - s == 0) by (apply (mul_unit _ (h - l)); lra). lra.
Qed.
Lemma pieces_other x y x' y' l h l' h' : ends_only x y x' y' -> 0 <= l -> l < h -> h <= 1 -> 0 <= l' -> l' < h' -> h' <= 1 ->
  ends_only (on_seg x y l) (on_seg x y h) (on_seg x' y' l') (on_seg x' y' h').
Proof.
  intros O L H U L' H' U' s t S T E.
  assert (B : forall l h s, 0 <= l -> l < h -> h <= 1 -> 0 <= s <= 1 -> 0 <= l + s * (h - l) <= 1).
  { clear. intros l h s L H U S. assert (0 <= s * (h - l)) by (apply Qmult_le_0_compat; lra). assert (0 <= (1 - s) * (h - l)) by (apply Qmult_le_0_compat; lra). lra. }
  destruct (O (l + s * (h - l)) (l' + t * (h' - l'))) as [A C]; [apply B; assumption|apply B; assumption| |].
  - apply (veq_trans _ (on_seg (on_seg x y l) (on_seg x y h) s)); [apply veq_sym, on_seg_part|]. apply (veq_trans _ _ _ E), on_seg_part.
  - split; [apply (at_end l h)|apply (at_end l' h')]; assumption.
Qed.

(* ---- one chain per segment ---- *)
Lemma fop_app {A} (R : A -> A -> Prop) l1 l2 : ForallOrdPairs R l1 -> ForallOrdPairs R l2 -> (forall x y, In x l1 -> In y l2 -> R x y) -> ForallOrdPairs R (l1 ++ l2).
Proof.
  induction 1 as [|a l F _ IH]; intros H2 X; [exact H2|]. cbn [app]. constructor; [|apply IH; [exact H2|]; intros x y I; apply X; right; exact I].
  apply Forall_app. split; [exact F|]. apply Forall_forall. intros y I. apply X; [left; reflexivity|exact I].
Qed.
Lemma fop_impl {A} (R S : A -> A -> Prop) l : (forall x y, R x y -> S x y) -> ForallOrdPairs R l -> ForallOrdPairs S l.
Proof. intros X. induction 1; constructor; [|assumption]. eapply Forall_impl; [|eassumption]. intros; apply X; assumption. Qed.

Section Chains.
Variable pos : nat -> vec2.
Variable base : nat -> Prop.
Hypothesis BASE : forall u v, base u -> base v -> veq (pos u) (pos v) -> u = v.
Definition chain (w : vec2 * vec2) (cs : list bedge) : Prop :=
  pieces pos (fst w) (snd w) 0 cs 1 /\ exists a b, route a b cs /\ base a /\ base b /\ veq (pos a) (fst w) /\ veq (pos b) (snd w).
Definition apart_edges (e f : bedge) : Prop := ends_only (fst (seg pos e)) (snd (seg pos e)) (fst (seg pos f)) (snd (seg pos f)).

Lemma chain_at w cs v : ~ veq (fst w) (snd w) -> chain w cs -> on_front cs v ->
  (exists s, 0 <= s <= 1 /\ veq (pos v) (on_seg (fst w) (snd w) s) /\ (s == 0 \/ s == 1 -> base v)).
Proof.
  intros N (P & a & b & R & A & B & VA & VB) O. destruct (pieces_vertex _ _ _ _ _ _ _ P O) as (s & S & E). exists s. split; [exact S|]. split; [exact E|].
  intros X. assert (U := fun u => pieces_unique pos (fst w) (snd w) N cs 0 1 a b v u P R O).
  assert (NE : cs <> []) by (intros ->; exact P).
  assert (AF : on_front cs a) by (destruct cs as [|c r]; [contradiction|]; exists c; split; [left; reflexivity|left; apply R]).
  assert (BF : on_front cs b).
  { pose proof (route_last _ _ _ R NE) as RL. destruct (exists_last NE) as (l & e & ->). exists e. split; [apply in_app_iff; right; left; reflexivity|].
    right. rewrite <- RL, map_app. cbn [map]. rewrite last_last. reflexivity. }
  assert (on0 : veq (on_seg (fst w) (snd w) 0) (fst w)) by (unfold veq, on_seg; cbn; split; ring).
  assert (on1 : veq (on_seg (fst w) (snd w) 1) (snd w)) by (unfold veq, on_seg; cbn; split; ring).
  destruct X as [X|X].
  - rewrite (U a AF); [exact A|]. apply (veq_trans _ _ _ E). apply (veq_trans _ (fst w)); [|apply veq_sym, VA].
    apply (veq_trans _ (on_seg (fst w) (snd w) 0)); [|exact on0]. unfold veq, on_seg. cbn [vx vy]. rewrite X. split; reflexivity.
  - rewrite (U b BF); [exact B|]. apply (veq_trans _ _ _ E). apply (veq_trans _ (snd w)); [|apply veq_sym, VB].
    apply (veq_trans _ (on_seg (fst w) (snd w) 1)); [|exact on1]. unfold veq, on_seg. cbn [vx vy]. rewrite X. split; reflexivity.
Qed.
Lemma chains_unique ws css : (forall w, In w ws -> ~ veq (fst w) (snd w)) ->
  ForallOrdPairs (fun e f => ends_only (fst e) (snd e) (fst f) (snd f)) ws -> Forall2 chain ws css ->
  forall u v, on_front (concat css) u -> on_front (concat css) v -> veq (pos u) (pos v) -> u = v.
Proof.
  intros N F H. revert N F. induction H as [|w cs ws css C H IH]; intros N F u v U V E; [destruct U as (e & [] & _)|].
  inversion F as [|? ? F1 F2]; subst.
  assert (SPLIT : forall z, on_front (cs ++ concat css) z -> on_front cs z \/ exists w' cs', In w' ws /\ chain w' cs' /\ on_front (concat css) z /\ on_front cs' z).
  { intros z (e & I & EZ). apply in_app_or in I. destruct I as [I|I]; [left; exists e; split; assumption|right].
    assert (J := I). apply in_concat in J. destruct J as (cs' & J & K). assert (X : exists w', In w' ws /\ chain w' cs').
    { clear - H J. induction H as [|w1 c1 ws css C _ IH]; [destruct J|]. destruct J as [<-|J]; [exists w1; split; [left; reflexivity|exact C]|].
      destruct (IH J) as (w' & A & B). exists w'. split; [right; exact A|exact B]. }
    destruct X as (w' & A & B). exists w', cs'. split; [exact A|]. split; [exact B|]. split; [exists e; split; assumption|exists e; split; assumption]. }
  assert (CROSS : forall z1 z2, on_front cs z1 -> (exists w' cs', In w' ws /\ chain w' cs' /\ on_front (concat css) z2 /\ on_front cs' z2) -> veq (pos z1) (pos z2) -> z1 = z2).
  { intros z1 z2 O1 (w' & cs' & I & C' & _ & O2) EQ.
    destruct (chain_at w cs z1 (N w (or_introl eq_refl)) C O1) as (s & S & P1 & B1). destruct (chain_at w' cs' z2 (N w' (or_intror I)) C' O2) as (t & T & P2 & B2).
    rewrite Forall_forall in F1. destruct (F1 w' I s t S T) as [X Y].
    - apply (veq_trans _ (pos z1)); [apply veq_sym, P1|]. apply (veq_trans _ (pos z2)); assumption.
    - apply BASE; [apply B1, X|apply B2, Y|exact EQ]. }
  cbn [concat] in U, V. destruct (SPLIT u U) as [U1|U1], (SPLIT v V) as [V1|V1].
  - destruct C as (P & a & b & R & _). exact (pieces_unique pos _ _ (N w (or_introl eq_refl)) cs 0 1 a b u v P R U1 V1 E).
  - apply CROSS; assumption.
  - symmetry. apply CROSS; [exact V1|exact U1|apply veq_sym, E].
  - destruct U1 as (_ & _ & _ & _ & U1 & _), V1 as (_ & _ & _ & _ & V1 & _).
    apply IH; try assumption. intros x I. apply N. right. exact I.
Qed.
Lemma chains_apart ws css : (forall w, In w ws -> ~ veq (fst w) (snd w)) ->
  ForallOrdPairs (fun e f => ends_only (fst e) (snd e) (fst f) (snd f)) ws -> Forall2 chain ws css ->
  ForallOrdPairs apart_edges (concat css).
Proof.
  intros N F H. revert N F. induction H as [|w cs ws css C H IH]; intros N F; [constructor|]. inversion F as [|? ? F1 F2]; subst. cbn [concat].
  apply fop_app.
  - destruct C as (P & _). apply (fop_impl _ _ _ (fun c d (X : exists l h l' h', _) => match X with ex_intro _ l (ex_intro _ h (ex_intro _ l' (ex_intro _ h' (conj H1 (conj H2 (conj H3 (conj (conj A1 A2) (conj B1 B2)))))))) =>
      ends_only_veq _ _ _ _ _ _ _ _ (veq_sym _ _ A1) (veq_sym _ _ A2) (veq_sym _ _ B1) (veq_sym _ _ B2)
        (pieces_apart _ _ l h l' h' (N w (or_introl eq_refl)) H1 H2 H3) end) (pieces_order pos (fst w) (snd w) cs 0 1 P)).
  - apply IH; [|exact F2]. intros x I. apply N. right. exact I.
  - intros c d I J. apply in_concat in J. destruct J as (cs' & J & K). assert (X : exists w', In w' ws /\ chain w' cs').
    { clear - H J. induction H as [|w1 c1 ws css C _ IH]; [destruct J|]. destruct J as [<-|J]; [exists w1; split; [left; reflexivity|exact C]|].
      destruct (IH J) as (w' & A & B). exists w'. split; [right; exact A|exact B]. }
    destruct X as (w' & A & (P' & _)). destruct C as (P & _).
    destruct (pieces_in _ _ _ _ _ _ _ P I) as (l & h & L1 & L2 & L3 & A1 & A2). destruct (pieces_in _ _ _ _ _ _ _ P' K) as (l' & h' & L1' & L2' & L3' & B1 & B2).
    rewrite Forall_forall in F1. specialize (F1 w' A).
    apply (ends_only_veq _ _ _ _ _ _ _ _ (veq_sym _ _ A1) (veq_sym _ _ A2) (veq_sym _ _ B1) (veq_sym _ _ B2)).
    apply pieces_other; assumption.
Qed.
(* every piece ends at a point of its own *)
Lemma chains_ends ws css : (forall w, In w ws -> ~ veq (fst w) (snd w)) ->
  ForallOrdPairs (fun e f => ends_only (fst e) (snd e) (fst f) (snd f)) ws ->
  ForallOrdPairs (fun w w' : vec2 * vec2 => ~ veq (snd w) (snd w')) ws -> Forall2 chain ws css ->
  ForallOrdPairs (fun e f => ~ veq (pos (be_v2 e)) (pos (be_v2 f))) (concat css).
Proof.
  intros N F G H. revert N F G. induction H as [|w cs ws css C H IH]; intros N F G; [constructor|]. inversion F as [|? ? F1 F2]; subst. inversion G as [|? ? G1 G2]; subst. cbn [concat].
  apply fop_app.
  - destruct C as (P & _). refine (fop_impl _ _ _ _ (pieces_order pos (fst w) (snd w) cs 0 1 P)).
    intros c d (l & h & l' & h' & H1 & H2 & H3 & (_ & A2) & (_ & B2)) Q.
    assert (E : h == h') by (apply (on_seg_inj (fst w) (snd w)); [exact (N w (or_introl eq_refl))|];
      apply (veq_trans _ _ _ (veq_sym _ _ A2)); apply (veq_trans _ _ _ Q B2)). lra.
  - apply IH; [|exact F2|exact G2]. intros x I. apply N. right. exact I.
  - intros c d I J Q. apply in_concat in J. destruct J as (cs' & J & K). assert (X : exists w', In w' ws /\ chain w' cs').
    { clear - H J. induction H as [|w1 c1 ws css C _ IH]; [destruct J|]. destruct J as [<-|J]; [exists w1; split; [left; reflexivity|exact C]|].
      destruct (IH J) as (w' & A & B). exists w'. split; [right; exact A|exact B]. }
    destruct X as (w' & A & (P' & _)). destruct C as (P & _).
    destruct (pieces_in _ _ _ _ _ _ _ P I) as (l & h & L1 & L2 & L3 & A1 & A2). destruct (pieces_in _ _ _ _ _ _ _ P' K) as (l' & h' & L1' & L2' & L3' & B1 & B2).
    rewrite Forall_forall in F1, G1. assert (E : veq (on_seg (fst w) (snd w) h) (on_seg (fst w') (snd w') h'))
      by (apply (veq_trans _ _ _ (veq_sym _ _ A2)); apply (veq_trans _ _ _ Q B2)).
    destruct (F1 w' A h h') as [X Y]; [lra|lra|exact E|]. assert (X1 : h == 1) by lra. assert (Y1 : h' == 1) by lra.
    apply (G1 w' A). clear - E X1 Y1. destruct E as [E1 E2]. unfold on_seg in E1, E2. cbn [vx vy] in E1, E2. rewrite X1, Y1 in E1, E2. split; lra.
Qed.
End Chains.

Lemma renumber_apart pos es : forall k, ForallOrdPairs (apart_edges pos) es -> ForallOrdPairs (apart_edges pos) (renumber k es).
Proof.
  induction es as [|e es IH]; intros k H; [constructor|]. inversion H as [|? ? A B]; subst. cbn [renumber]. constructor; [|apply IH, B].
  apply Forall_forall. intros f I. apply renumber_in in I. destruct I as (g & I & E). rewrite Forall_forall in A. specialize (A g I).
  unfold payload in E. injection E as E1 E2 _ _. unfold apart_edges, seg in *. cbn [be_v1 be_v2 fst snd] in *. rewrite E1, E2. exact A.
Qed.
Lemma renumber_ends (pos : nat -> vec2) es : forall k, ForallOrdPairs (fun e f => ~ veq (pos (be_v2 e)) (pos (be_v2 f))) es ->
  ForallOrdPairs (fun e f => ~ veq (pos (be_v2 e)) (pos (be_v2 f))) (renumber k es).
Proof.
  induction es as [|e es IH]; intros k H; [constructor|]. inversion H as [|? ? A B]; subst. cbn [renumber]. constructor; [|apply IH, B].
  apply Forall_forall. intros f I. apply renumber_in in I. destruct I as (g & I & E). rewrite Forall_forall in A. specialize (A g I).
  unfold payload in E. injection E as E1 E2 _ _. cbn [be_v2]. rewrite E2. exact A.
Qed.
Lemma renumber_on es v : forall k, on_front (renumber k es) v -> on_front es v.
Proof.
  intros k (e & I & E). apply renumber_in in I. destruct I as (g & I & P). unfold payload in P. injection P as E1 E2 _ _.
  exists g. split; [exact I|]. rewrite <- E1, <- E2. exact E.
Qed.

(* ---- the initial front ---- *)
Lemma loosened_concat pos pts : forall fs css, Forall2 (fun f cs => chain_of pos f (pts f) cs) fs css ->
  exists css', loosened (concat css) = concat css' /\ Forall2 (fun f cs => chain_of pos f (pts f) cs) (filter (fun f => negb (fe_fix f)) fs) css'.
Proof.
  unfold loosened. intros fs css F. induction F as [|f cs fs css H _ IH]; [exists []; split; [reflexivity|constructor]|].
  destruct IH as (css' & A & B). assert (P := H). destruct P as (_ & _ & _ & P). rewrite Forall_forall in P.
  assert (Fx : forall c, In c cs -> is_fixed c = fe_fix f).
  { intros c Hc. unfold is_fixed. destruct (P c Hc) as [_ ->]. destruct (fe_fix f); reflexivity. }
  cbn [concat filter]. rewrite filter_app, A. destruct (fe_fix f); cbn [negb].
  - exists css'. split; [|exact B]. rewrite filter_none by (intros c Hc; rewrite (Fx c Hc); reflexivity). reflexivity.
  - exists (cs :: css'). split; [|constructor; assumption]. rewrite filter_all by (intros c Hc; rewrite (Fx c Hc); reflexivity). reflexivity.
Qed.
Lemma strictly_any a b pts a' b' : veq a a' -> veq b b' -> strictly_inside a b pts ->
  exists ss, increasing 0 ss 1 /\ Forall2 (fun s p => veq p (on_seg a' b' s)) ss pts.
Proof.
  intros [A1 A2] [B1 B2] (ss & I & F). exists ss. split; [exact I|]. clear I. induction F as [|s p ss pts [E1 E2] F IH]; constructor; [|exact IH].
  unfold veq, on_seg, vadd, vscale, vsub in *. cbn [vx vy] in *. rewrite E1, E2, A1, A2, B1, B2. split; ring.
Qed.
Lemma chain_of_chain pos (base : nat -> Prop) w f pts cs : ~ veq (fst w) (snd w) -> chain_of pos f pts cs -> base (fe_1 f) -> base (fe_2 f) ->
  veq (pos (fe_1 f)) (fst w) -> veq (pos (fe_2 f)) (snd w) ->
  (exists ss, increasing 0 ss 1 /\ Forall2 (fun s p => veq p (on_seg (fst w) (snd w) s)) ss pts) -> chain pos base w cs.
Proof.
  intros N (R & P & L & _) B1 B2 V1 V2 (ss & I & F). split.
  - apply (pieces_of_chain pos (fst w) (snd w) cs (fe_1 f) (fe_2 f) ss 0 R).
    + rewrite P. exact F.
    + rewrite L. f_equal. symmetry. exact (Forall2_len _ _ _ F).
    + exact I.
    + apply (veq_trans _ _ _ V1). unfold veq, on_seg. cbn [vx vy]. split; ring.
    + apply (veq_trans _ _ _ V2). unfold veq, on_seg. cbn [vx vy]. split; ring.
  - exists (fe_1 f), (fe_2 f). auto.
Qed.
Lemma stands_pos d pos i w : (forall v, (v < length (fd_verts d))%nat -> pos v = nth v (fd_verts d) (V2 0 0)) -> stands (fd_verts d) i w ->
  veq (pos i) w /\ (i < length (fd_verts d))%nat.
Proof.
  intros P S. assert (L := stands_lt _ _ _ S). split; [|exact L]. destruct S as (y & E & V). rewrite P, (nth_error_nth _ _ _ E) by exact L.
  apply veq_sym, veqb_true, V.
Qed.
Lemma start_front bounds fixed meshes sub loose col : simple_curves (map fst (flat_map (wanted meshes) bounds)) ->
  (forall e, In e bounds -> de_fix e = false) -> (forall e, In e fixed -> de_fix e = true) ->
  (forall e, In e (concat meshes) -> de_fix e = false) ->
  (forall e, In e (bounds ++ fixed ++ concat meshes) -> veqb (de_a e) (de_b e) = false /\
     in_square front_scale (de_a e) = true /\ in_square front_scale (de_b e) = true) ->
  (forall a b, Forall (on_line a b) (sub a b)) -> (forall a b, ~ veq a b -> strictly_inside a b (sub a b)) ->
  let st := prepared sub (collect_front_edges bounds fixed meshes) loose col in
  simple_front (ms_pos st) (ms_front st) /\
  (forall e, In e (ms_front st) -> In (be_v1 e) (ms_verts st) /\ In (be_v2 e) (ms_verts st)) /\
  (ForallOrdPairs (fun w w' : vec2 * vec2 => ~ veq (snd w) (snd w')) (map fst (flat_map (wanted meshes) bounds)) ->
   forall e f, In e (ms_front st) -> In f (ms_front st) -> be_v2 e = be_v2 f -> e = f).
Proof.
  intros SC HB HF HM HE HL HS st. set (d := collect_front_edges bounds fixed meshes) in *.
  assert (OK : indices_ok d) by apply collect_indices.
  assert (SQ : coords_in front_scale d).
  { apply collect_coords; [intros e He; apply (HE e He)|]. intros e n Hn. exact (proj1 (neighbours_in _ _ _ Hn)). }
  assert (PR : proper d) by (apply collect_proper; intros e He; apply (HE e He)).
  assert (CL : forall v, in_deg v (map fe_ends (filter (fun f => negb (fe_fix f)) (fd_edges d))) =
             out_deg v (map fe_ends (filter (fun f => negb (fe_fix f)) (fd_edges d)))).
  { apply (closed_indices (fd_verts d) _ (flat_map (wanted meshes) bounds)).
    - destruct (collect_spec bounds fixed meshes) as (A & _). exact A.
    - apply collect_loose; assumption.
    - apply (sc_closed _ SC). }
  destruct (refined_spec sub d OK SQ) as ((css & E & CH) & P & PV & _ & _ & VB & _). specialize (VB PR).
  set (rst := refined_state sub d) in *.
  destruct (loosened_concat _ _ _ _ CH) as (css' & LE & CH').
  assert (DI : distinct (fd_verts d)) by (destruct (collect_spec bounds fixed meshes) as (A & _); exact A).
  assert (M := collect_loose bounds fixed meshes HB HF HM). fold d in M.
  set (ws := map fst (flat_map (wanted meshes) bounds)) in *.
  assert (PROPER := sc_proper _ SC).
  assert (C2 : Forall2 (chain (rs_pos rst) (fun v => (v < length (fd_verts d))%nat)) ws css').
  { unfold ws in PROPER |- *. clear - M CH' P PROPER HS. revert CH' PROPER. generalize css'. clear css'.
    induction M as [|f w fs wl (S1 & S2 & _) M IH]; intros css' CH' PROPER; inversion CH' as [|? cs ? ? C CH'']; subst; [constructor|]. cbn [map] in *. constructor.
    - destruct (stands_pos d _ _ _ P S1) as [V1 L1]. destruct (stands_pos d _ _ _ P S2) as [V2 L2].
      apply (chain_of_chain _ _ _ f (edge_inner sub d f) cs); try assumption; [apply PROPER; left; reflexivity|].
      unfold edge_inner. destruct (fe_twin f); [exists []; split; [cbn; lra|constructor]|].
      apply (strictly_any (posn d (fe_1 f)) (posn d (fe_2 f))).
      + rewrite <- P by exact L1. exact V1.
      + rewrite <- P by exact L2. exact V2.
      + apply HS. rewrite <- !P by assumption. intros Q. apply (PROPER (fst w) (or_introl eq_refl)).
        apply (veq_trans _ _ _ (veq_sym _ _ V1)). apply (veq_trans _ _ _ Q V2).
    - apply IH; [exact CH''|]. intros x I. apply PROPER. right. exact I. }
  assert (BASE : forall u v, (u < length (fd_verts d))%nat -> (v < length (fd_verts d))%nat -> veq (rs_pos rst u) (rs_pos rst v) -> u = v).
  { intros u v U V Q. rewrite !P in Q by assumption. unfold posn in Q. apply (DI u v (nth u (fd_verts d) (V2 0 0)) (nth v (fd_verts d) (V2 0 0))).
    - apply nth_error_nth'. exact U.
    - apply nth_error_nth'. exact V.
    - apply veqb_true. exact Q. }
  assert (FR : ms_front st = renumber 0 (concat css')).
  { unfold st. rewrite (prepared_front sub d loose col). fold rst. rewrite E, LE. reflexivity. }
  assert (NV : forall e, In e (ms_front st) -> (be_v1 e < rs_nv rst)%nat /\ (be_v2 e < rs_nv rst)%nat /\ be_v1 e <> be_v2 e).
  { intros e I. rewrite FR in I. apply renumber_in in I. destruct I as (g & I & Q). unfold payload in Q. injection Q as -> -> _ _.
    apply VB. rewrite E. rewrite <- LE in I. apply filter_In in I. apply I. }
  assert (PP : forall v, (v < rs_nv rst)%nat -> ms_pos st v = rs_pos rst v) by (intros v L; unfold st; apply prepared_pos; exact L).
  assert (OF : forall v, on_front (ms_front st) v -> (v < rs_nv rst)%nat /\ on_front (concat css') v).
  { intros v (e & I & Q). split; [destruct (NV e I) as (L1 & L2 & _); destruct Q as [<-|<-]; assumption|].
    apply (renumber_on _ _ 0). rewrite <- FR. exists e. split; assumption. }
  split; [|split].
  - constructor.
    + rewrite FR, renumber_ids. apply seq_NoDup.
    + intros e I. apply (NV e I).
    + apply (prepared_closed sub d loose col OK SQ CL).
    + intros u v U V Q. destruct (OF u U) as [LU U'], (OF v V) as [LV V']. rewrite !PP in Q by assumption.
      exact (chains_unique _ _ BASE ws css' PROPER (sc_ends _ SC) C2 u v U' V' Q).
    + intros e f I J N. assert (A := renumber_apart _ _ 0 (chains_apart _ _ ws css' PROPER (sc_ends _ SC) C2)). rewrite <- FR in A.
      unfold seg. cbn [fst snd]. destruct (NV e I) as (A1 & A2 & _), (NV f J) as (B1 & B2 & _). rewrite !PP by assumption.
      destruct (ForallOrdPairs_In A e f I J) as [Q|[Q|Q]]; [subst; contradiction|exact Q|].
      apply ends_only_sym. exact Q.
    + intros z. assert (W : winding z (map (seg (ms_pos st)) (ms_front st)) == winding z ws); [|rewrite W; apply (sc_region _ SC)].
      assert (IW := initial_winding z bounds fixed meshes sub loose col HB HF HM HE HL). cbv zeta in IW. fold d in IW. fold st in IW. fold ws in IW. rewrite <- IW.
      unfold winding, ends. clear. induction (ms_front st) as [|e l IH]; [reflexivity|]. cbn [map esum seg]. rewrite IH. reflexivity.
  - intros e I. destruct (NV e I) as (L1 & L2 & _).
    assert (IN : forall v, (v < rs_nv rst)%nat -> In v (ms_verts st)).
    { intros v L. unfold st, prepared, init_front. cbn [ms_verts rs_verts]. apply in_or_app. left.
      apply (Permutation_in _ (Permutation_sym PV)). apply in_seq. lia. }
    split; apply IN; assumption.
  - intros DE e f I J Q. assert (A := renumber_ends _ _ 0 (chains_ends _ _ ws css' PROPER (sc_ends _ SC) DE C2)). rewrite <- FR in A.
    assert (R : forall x y, In x (ms_front st) -> be_v2 x = be_v2 y -> ~ ~ veq (rs_pos rst (be_v2 x)) (rs_pos rst (be_v2 y))) by (intros x y _ -> Z; apply Z; split; reflexivity).
    destruct (ForallOrdPairs_In A e f I J) as [P1|[P1|P1]]; [exact P1|exfalso; exact (R e f I Q P1)|exfalso; exact (R f e J (eq_sym Q) P1)].
Qed.
Lemma start_simple bounds fixed meshes sub loose col : simple_curves (map fst (flat_map (wanted meshes) bounds)) ->
  (forall e, In e bounds -> de_fix e = false) -> (forall e, In e fixed -> de_fix e = true) ->
  (forall e, In e (concat meshes) -> de_fix e = false) ->
  (forall e, In e (bounds ++ fixed ++ concat meshes) -> veqb (de_a e) (de_b e) = false /\
     in_square front_scale (de_a e) = true /\ in_square front_scale (de_b e) = true) ->
  (forall a b, Forall (on_line a b) (sub a b)) -> (forall a b, ~ veq a b -> strictly_inside a b (sub a b)) ->
  let st := prepared sub (collect_front_edges bounds fixed meshes) loose col in
  simple_front (ms_pos st) (ms_front st) /\
  (forall e, In e (ms_front st) -> In (be_v1 e) (ms_verts st) /\ In (be_v2 e) (ms_verts st)).
Proof.
  intros SC HB HF HM HE HL HS st. destruct (start_front bounds fixed meshes sub loose col SC HB HF HM HE HL HS) as (A & B & _). split; assumption.
Qed.

(* ---- simple polygons ---- *)
Lemma fop_intro {A} (R : A -> A -> Prop) l : NoDup l -> (forall x y, In x l -> In y l -> x <> y -> R x y) -> ForallOrdPairs R l.
Proof.
  induction 1 as [|a l N D IH]; intros X; [constructor|]. constructor.
  - apply Forall_forall. intros y I. apply X; [left; reflexivity|right; exact I|]. intros ->. contradiction.
  - apply IH. intros x y I J. apply X; right; assumption.
Qed.
Lemma path_fst {A} (l : list A) : forall a, map fst (path_edges a l) = removelast (a :: l).
Proof.
  induction l as [|b l IH]; intros a; [reflexivity|]. cbn [path_edges map]. rewrite IH. rewrite (removelast_cons a) by discriminate. reflexivity.
Qed.
Lemma ring_nodup (l : list vec2) : ForallOrdPairs (fun a b => ~ veq a b) l -> NoDup (ring_edges l).
Proof.
  intros F. apply (NoDup_map_inv fst). destruct l as [|a l]; [constructor|]. cbn [ring_edges]. rewrite path_fst.
  change (a :: l ++ [a]) with ((a :: l) ++ [a]). rewrite removelast_last. clear - F.
  induction F as [|x m A _ IH]; constructor; [|exact IH]. intros I. rewrite Forall_forall in A. apply (A x I). split; reflexivity.
Qed.
