(* The links between the new boundary edges and those of the neighbour meshes. *)
From Coq Require Import Lia Lqa Permutation.
From Verif Require Import Base Chain GeomModel GeomSpec GeomProofs UtilModel BdryModel BdrySpec BdryProofs AdvanceModel AdvanceSpec AdvanceProofs MeshModel
  FrontModel FrontSpec FrontProofs RefineProofs InitProofs MergerModel FinModel WindSpec ClearSpec ClearStart TwinModel TwinSpec TwinProofs.
From Verif Require GlueProofs.
Open Scope Q_scope.

Lemma segments_des ms : segments_of ms = map bdry_des ms.
Proof. reflexivity. Qed.

(* ---- pairs ---- *)
Lemma pair_cases ms bounds p : In p (flat_map (pairs_of ms) bounds) ->
  (exists e, In e bounds /\ neighbour_edges ms e = [] /\ p = ((de_ends e, de_col e), None)) \/
  (exists e m t, In e bounds /\ In m ms /\ In t (mh_bdry m) /\ In (ed_id t, bdry_de m t) (neighbour_edges ms e) /\
     p = ((swap_edge (de_ends (bdry_de m t)), ed_col t), Some (ed_id t))).
Proof.
  intros H. apply in_flat_map in H. destruct H as (e & He & H). unfold pairs_of in H. pose proof (fun n => neighbour_edges_in ms e n) as NI.
  destruct (neighbour_edges ms e) as [|n ns] eqn:EN.
  - destruct H as [<-|[]]. left. exists e. auto.
  - right. apply in_map_iff in H. destruct H as (n' & <- & Hn). assert (K := proj1 (proj1 (NI n') Hn)).
    apply in_flat_map in K. destruct K as (m & Hm & K). unfold named in K. apply in_map_iff in K. destruct K as (t & <- & Ht).
    exists e, m, t. split; [exact He|]. split; [exact Hm|]. split; [exact Ht|]. split; [rewrite EN; exact Hn|]. reflexivity.
Qed.
Lemma neighbour_pair ms bounds e n : In e bounds -> In n (neighbour_edges ms e) -> In ((swap_edge (de_ends (snd n)), de_col (snd n)), Some (fst n)) (flat_map (pairs_of ms) bounds).
Proof.
  intros He Hn. apply in_flat_map. exists e. split; [exact He|]. unfold pairs_of. destruct (neighbour_edges ms e) as [|x xs]; [destruct Hn|].
  apply in_map_iff. exists n. split; [reflexivity|exact Hn].
Qed.
Lemma map_inj_in {A} (g : A -> nat) l : NoDup (map g l) -> forall x y, In x l -> In y l -> g x = g y -> x = y.
Proof.
  induction l as [|a l IH]; intros N x y X Y E; [destruct X|]. cbn [map] in N. apply NoDup_cons_iff in N. destruct N as [N1 N2].
  destruct X as [<-|X], Y as [<-|Y]; [reflexivity| | |exact (IH N2 x y X Y E)]; exfalso; apply N1; [rewrite E|rewrite <- E]; apply in_map; assumption.
Qed.
Lemma nodup_cross {A} (l l' : list A) x : NoDup (l ++ l') -> In x l -> In x l' -> False.
Proof.
  induction l as [|a l IH]; intros N I J; [destruct I|]. cbn [app] in N. apply NoDup_cons_iff in N. destruct N as [N1 N2].
  destruct I as [<-|I]; [apply N1; apply in_app_iff; right; exact J|exact (IH N2 I J)].
Qed.
Lemma same_id ms m t m' t' : NoDup (map ed_id (flat_map mh_bdry ms)) -> In m ms -> In m' ms -> In t (mh_bdry m) -> In t' (mh_bdry m') -> ed_id t = ed_id t' -> m = m' /\ t = t'.
Proof.
  induction ms as [|x ms IH]; intros N Hm Hm' Ht Ht' E; [destruct Hm|]. cbn [flat_map] in N. rewrite map_app in N.
  assert (CR : forall m t t', In m ms -> In t (mh_bdry m) -> In t' (mh_bdry x) -> ed_id t = ed_id t' -> False).
  { intros y u u' Hy Hu Hu' Q. apply (nodup_cross _ _ (ed_id u') N); [apply in_map; exact Hu'|]. rewrite <- Q. apply in_map. apply in_flat_map. exists y. auto. }
  destruct Hm as [<-|Hm], Hm' as [<-|Hm'].
  - split; [reflexivity|]. apply (map_inj_in ed_id (mh_bdry x)); try assumption. clear - N. revert N. generalize (map ed_id (flat_map mh_bdry ms)). generalize (map ed_id (mh_bdry x)).
    intros l l' N. induction l as [|a l IH]; [constructor|]. cbn [app] in N. apply NoDup_cons_iff in N. destruct N as [N1 N2]. constructor; [|exact (IH N2)].
    intros X. apply N1. apply in_app_iff. left. exact X.
  - exfalso. exact (CR m' t' t Hm' Ht' Ht (eq_sym E)).
  - exfalso. exact (CR m t t' Hm Ht Ht' E).
  - apply IH; try assumption. clear - N. induction (map ed_id (mh_bdry x)) as [|a l IHl]; [exact N|]. cbn [app] in N. apply NoDup_cons_iff in N. exact (IHl (proj2 N)).
Qed.

(* two segments one on the other are not disjoint *)
Lemma self_contact a b c d : veq a c -> veq b d -> ~ ends_only a b c d.
Proof.
  intros [A1 A2] [B1 B2] H. destruct (H (1 # 2) (1 # 2)) as [[X|X] _]; try discriminate; [lra|lra|].
  unfold veq, on_seg. cbn [vx vy]. rewrite A1, A2, B1, B2. split; reflexivity.
Qed.

(* every neighbour edge is used once *)
Lemma partners_once ms bounds : NoDup (map ed_id (flat_map mh_bdry ms)) ->
  ForallOrdPairs (fun p q : partner => ends_only (fst (fst (fst p))) (snd (fst (fst p))) (fst (fst (fst q))) (snd (fst (fst q)))) (flat_map (pairs_of ms) bounds) ->
  NoDup (somes (map snd (flat_map (pairs_of ms) bounds))).
Proof.
  intros N F. assert (C := fun p => pair_cases ms bounds p). revert C F. generalize (flat_map (pairs_of ms) bounds). intros ps C F.
  induction F as [|p ps F1 _ IH]; [constructor|]. assert (IH' := IH (fun q Hq => C q (or_intror Hq))). cbn [map somes flat_map]. fold (somes (map snd ps)).
  destruct (snd p) as [i|] eqn:E; [|exact IH']. cbn [app]. constructor; [|exact IH']. intros X. apply somes_in, in_map_iff in X. destruct X as (q & Q & Hq).
  rewrite Forall_forall in F1. specialize (F1 q Hq).
  destruct (C p (or_introl eq_refl)) as [(e & _ & _ & ->)|(e & m & t & _ & Hm & Ht & _ & ->)]; [discriminate|].
  destruct (C q (or_intror Hq)) as [(e' & _ & _ & ->)|(e' & m' & t' & _ & Hm' & Ht' & _ & ->)]; [discriminate|].
  cbn [snd fst] in *. injection E as <-. injection Q as Q. destruct (same_id ms m' t' m t N Hm' Hm Ht' Ht Q) as [-> ->].
  revert F1. apply self_contact; apply veq_refl.
Qed.
Lemma twins_same pos base refs ps css : Forall2 (from_partner pos base refs) ps css -> somes (map (front_twin refs) (concat css)) = somes (map snd ps).
Proof.
  induction 1 as [|p cs ps css (P & T & L) _ IH]; [reflexivity|]. cbn [concat map]. rewrite map_app. unfold somes in *. rewrite flat_map_app, IH. cbn [flat_map]. f_equal.
  destruct (snd p) as [i|] eqn:E.
  - destruct cs as [|c [|? ?]]; [specialize (L ltac:(discriminate)); discriminate| |specialize (L ltac:(discriminate)); discriminate].
    inversion T as [|? ? [T1 _] _]; subst. cbn [map flat_map]. rewrite T1. reflexivity.
  - clear - T. induction T as [|c cs [T1 _] _ IH]; [reflexivity|]. cbn [map flat_map]. rewrite T1. exact IH.
Qed.
Lemma link_untwinned f m : untwinned (link f m) = untwinned m.
Proof. unfold untwinned, link, set_bdry. cbn. f_equal. rewrite map_map. apply map_ext. intros e. destruct (f (ed_id e)); reflexivity. Qed.

(* ---- what prepare gives ---- *)
Section Prepared.
Variable sub : vec2 -> vec2 -> list vec2.
Variables fbase nbase : nat.
Variables bounds fixed : list dedge.
Variable ms : list mesh.
Variable loose : list vec2.
Variable col : Z.
Let d := collect_front_edges bounds fixed (map bdry_des ms).
Let refs := twin_refs bounds fixed ms.
Let tw := map (front_twin refs) (loosened (rs_front (refined_state sub d))).
Let st := prepared sub d loose col.

Lemma prepare_eq : prepare sub fbase nbase bounds fixed ms loose col =
  (st, tw, map (link (last_at nbase tw)) (map (link (last_at fbase refs)) ms)).
Proof.
  unfold prepare. fold d refs. rewrite connect_link, mark_link, !Nat.add_0_r.
  assert (E : filter (fun e => negb (is_fixed e)) (rs_front (init_front sub d)) = loosened (rs_front (refined_state sub d))).
  { unfold init_front. cbn [rs_front]. fold (refined_state sub d). apply ghosts_loosened. }
  rewrite E. reflexivity.
Qed.

Hypothesis R : ready sub bounds fixed ms.
Lemma pairs_proper p : In p (flat_map (pairs_of ms) bounds) -> ~ veq (fst (fst (fst p))) (snd (fst (fst p))).
Proof. intros H. apply (sc_proper _ (rd_simple _ _ _ _ R)). rewrite segments_des, <- all_wanted. apply in_map, in_map. exact H. Qed.
Lemma pairs_apart : ForallOrdPairs (fun p q : partner => ends_only (fst (fst (fst p))) (snd (fst (fst p))) (fst (fst (fst q))) (snd (fst (fst q)))) (flat_map (pairs_of ms) bounds).
Proof.
  assert (F := sc_ends _ (rd_simple _ _ _ _ R)). rewrite segments_des, <- all_wanted, map_map in F. revert F. generalize (flat_map (pairs_of ms) bounds). intros ps F.
  induction ps as [|p ps IH]; [constructor|]. cbn [map] in F. inversion F as [|? ? F1 F2]; subst. constructor; [|exact (IH F2)].
  apply Forall_forall. intros q Hq. rewrite Forall_forall in F1. apply (F1 (fst (fst q))). apply (in_map (fun x : partner => fst (fst x))). exact Hq.
Qed.
Lemma partners : exists css, loosened (rs_front (refined_state sub d)) = concat css /\
  Forall2 (from_partner (rs_pos (refined_state sub d)) (fun v => (v < length (fd_verts d))%nat) refs) (flat_map (pairs_of ms) bounds) css.
Proof.
  apply front_partners.
  - exact pairs_proper.
  - exact (rd_bounds _ _ _ _ R).
  - exact (rd_fixed _ _ _ _ R).
  - exact (rd_loose _ _ _ _ R).
  - intros e He. apply (rd_edges _ _ _ _ R e He).
  - exact (rd_sub _ _ _ _ R).
Qed.
Lemma twins_once : NoDup (somes tw).
Proof.
  destruct partners as (css & E & F). unfold tw. rewrite E, (twins_same _ _ _ _ _ F). apply partners_once; [exact (rd_ids _ _ _ _ R)|exact pairs_apart].
Qed.
Lemma refs_twins i : In (Some i) refs <-> In (Some i) tw.
Proof.
  destruct partners as (css & E & F). rewrite <- (somes_in tw). unfold tw. rewrite E, (twins_same _ _ _ _ _ F), somes_in, all_refs. unfold refs, twin_refs.
  rewrite in_app_iff. split; [intros [H|H]; [exact H|]|auto]. apply in_map_iff in H. destruct H as (x & X & _). discriminate.
Qed.
Lemma prepare_meshes : prepare sub fbase nbase bounds fixed ms loose col = (st, tw, map (link (last_at nbase tw)) ms).
Proof.
  rewrite prepare_eq. f_equal. rewrite map_map. apply map_ext. intros m. rewrite link_link. apply link_ext. intros i. unfold over.
  destruct (last_at nbase tw i) eqn:E; [reflexivity|]. apply last_at_none in E. apply last_at_none. rewrite refs_twins. exact E.
Qed.

Lemma front_ids : map be_id (ms_front st) = seq 0 (length tw).
Proof. unfold st. rewrite prepared_front, renumber_ids. unfold tw. rewrite map_length. reflexivity. Qed.
Lemma front_old e : In e (ms_front st) -> (be_v1 e < rs_nv (refined_state sub d))%nat /\ (be_v2 e < rs_nv (refined_state sub d))%nat.
Proof.
  intros I. assert (OK : indices_ok d) by apply collect_indices.
  assert (SQ : coords_in front_scale d).
  { apply collect_coords; [intros x Hx; apply (rd_edges _ _ _ _ R x Hx)|]. intros x n Hn. exact (proj1 (neighbours_in _ _ _ Hn)). }
  assert (PR : proper d) by (apply collect_proper; intros x Hx; apply (rd_edges _ _ _ _ R x Hx)).
  destruct (refined_spec sub d OK SQ) as (_ & _ & _ & _ & _ & VB & _). specialize (VB PR).
  unfold st in I. rewrite prepared_front in I. apply renumber_in in I. destruct I as (g & I & Q). unfold payload in Q. injection Q as -> -> _ _.
  apply filter_In in I. destruct (VB g (proj1 I)) as (A & B & _). split; assumption.
Qed.
(* one edge of the front *)
Lemma front_edge e : In e (ms_front st) -> exists p l h, In p (flat_map (pairs_of ms) bounds) /\ nth_error tw (be_id e) = Some (snd p) /\ be_col e = snd (fst p) /\
  0 <= l /\ l < h /\ h <= 1 /\ piece (ms_pos st) (fst (fst (fst p))) (snd (fst (fst p))) e l h /\ (snd p <> None -> l == 0 /\ h == 1).
Proof.
  intros I. destruct (front_old e I) as [O1 O2]. assert (I' := I). unfold st in I'. rewrite prepared_front in I'. destruct partners as (css & E & F). rewrite E in I'.
  apply In_nth_error in I'. destruct I' as (j & J).
  assert (X : exists g, nth_error (concat css) j = Some g /\ e = BE j (be_v1 g) (be_v2 g) (be_col g) (be_prop g)).
  { assert (G : forall es k j x, nth_error (renumber k es) j = Some x -> exists g, nth_error es j = Some g /\ x = BE (k + j) (be_v1 g) (be_v2 g) (be_col g) (be_prop g)).
    { clear. induction es as [|y es IH]; intros k j x H; [destruct j; discriminate|]. destruct j as [|j]; cbn [renumber nth_error] in H.
      - injection H as <-. exists y. split; [reflexivity|]. rewrite Nat.add_0_r. reflexivity.
      - destruct (IH _ _ _ H) as (g & A & ->). exists g. split; [exact A|]. rewrite Nat.add_succ_r. reflexivity. }
    exact (G _ 0%nat j e J). }
  destruct X as (g & G & ->). cbn [be_id be_v1 be_v2 be_col] in *. assert (IG := nth_error_In _ _ G). apply in_concat in IG. destruct IG as (cs & Hcs & IG).
  destruct (GlueProofs.forall2_in_r _ _ _ cs F Hcs) as (p & Hp & ((P & _) & T & L)). rewrite Forall_forall in T. destruct (T g IG) as [T1 T2].
  assert (RS : nth_error tw j = Some (snd p)).
  { unfold tw. rewrite E, <- T1. apply map_nth_error. exact G. }
  destruct (snd p) as [i|] eqn:SP.
  - specialize (L ltac:(discriminate)). destruct cs as [|c [|? ?]]; try discriminate. destruct IG as [<-|[]]. destruct P as [_ [P1 P2]].
    exists p, 0, 1. rewrite SP. split; [exact Hp|]. split; [exact RS|]. split; [exact T2|]. split; [lra|]. split; [lra|]. split; [lra|]. split; [|intros _; split; reflexivity].
    split; cbn [be_v1 be_v2]; unfold st; rewrite prepared_pos by assumption; assumption.
  - destruct (pieces_in _ _ _ _ _ _ _ P IG) as (l & h & L1 & L2 & L3 & [P1 P2]). exists p, l, h. rewrite SP.
    split; [exact Hp|]. split; [exact RS|]. split; [exact T2|]. split; [exact L1|]. split; [exact L2|]. split; [exact L3|]. split; [|intros N; contradiction].
    split; cbn [be_v1 be_v2]; unfold st; rewrite prepared_pos by assumption; assumption.
Qed.

Lemma twin_nth j o : nth_error tw j = Some o -> twin_of tw j = o.
Proof. intros H. unfold twin_of. apply nth_error_nth. exact H. Qed.
Lemma at0 a b p l : l == 0 -> veq p (on_seg a b l) -> veq p a.
Proof. intros L [X Y]. unfold on_seg in *. cbn [vx vy] in *. rewrite L in X, Y. split; [rewrite X|rewrite Y]; ring. Qed.
Lemma at1 a b p l : l == 1 -> veq p (on_seg a b l) -> veq p b.
Proof. intros L [X Y]. unfold on_seg in *. cbn [vx vy] in *. rewrite L in X, Y. split; [rewrite X|rewrite Y]; ring. Qed.

Lemma twin_leads e i : In e (ms_front st) -> twin_of tw (be_id e) = Some i ->
  exists m t, In m ms /\ In t (mh_bdry m) /\ ed_id t = i /\ coincide (ms_pos st) e m t /\ be_col e = ed_col t /\ last_at nbase tw i = Some (nbase + be_id e)%nat.
Proof.
  intros I T. destruct (front_edge e I) as (p & l & h & Hp & N & C & L1 & L2 & L3 & [P1 P2] & W). rewrite (twin_nth _ _ N) in T.
  assert (LA : last_at nbase tw i = Some (nbase + be_id e)%nat) by (apply last_at_once; [exact twins_once|rewrite N, T; reflexivity]).
  rewrite T in W. destruct (W ltac:(discriminate)) as [W0 W1]. clear N.
  destruct (pair_cases ms bounds p Hp) as [(E & _ & _ & ->)|(E & m & t & _ & Hm & Ht & _ & ->)]; [discriminate|]. cbn [fst snd] in *. injection T as <-.
  exists m, t. split; [exact Hm|]. split; [exact Ht|]. split; [reflexivity|]. split; [|split; assumption].
  split; [exact (at0 _ _ _ _ W0 P1)|exact (at1 _ _ _ _ W1 P2)].
Qed.
Lemma twin_back i x : last_at nbase tw i = Some x -> exists e, In e (ms_front st) /\ x = (nbase + be_id e)%nat /\ twin_of tw (be_id e) = Some i.
Proof.
  intros H. destruct (last_at_some _ _ _ _ H) as (j & -> & J). assert (L : (j < length tw)%nat) by (apply nth_error_Some; rewrite J; discriminate).
  assert (X : In j (map be_id (ms_front st))) by (rewrite front_ids; apply in_seq; lia). apply in_map_iff in X. destruct X as (e & <- & I).
  exists e. split; [exact I|]. split; [reflexivity|]. apply twin_nth. exact J.
Qed.
Lemma near_veq e n n' : veq (de_a n) (de_a n') -> veq (de_b n) (de_b n') -> near_de e n = true -> near_de e n' = true.
Proof.
  intros [A1 A2] [B1 B2]. unfold near_de, AdvanceModel.within. rewrite !Qleb_true. unfold de_mid, vnorm2, vdot, vsub, vscale, vadd. cbn [vx vy]. rewrite A1, A2, B1, B2. auto.
Qed.
Lemma orient_veq a b p p' : veq p p' -> in_on_segment a b p = true -> in_on_segment a b p' = true.
Proof.
  intros [A1 A2]. unfold in_on_segment. assert (O : orientation a b p' = orientation a b p).
  { unfold orientation. assert (Z : area2 a b p' == area2 a b p) by (unfold area2; rewrite A1, A2; reflexivity).
    assert (Q : Qltb (area2 a b p' * area2 a b p') small = Qltb (area2 a b p * area2 a b p) small) by (apply Bool.eq_iff_eq_true; rewrite !Qltb_true, Z; reflexivity). rewrite Q.
    destruct (Qltb (area2 a b p * area2 a b p) small); [reflexivity|].
    assert (Q' : Qltb 0 (area2 a b p') = Qltb 0 (area2 a b p)) by (apply Bool.eq_iff_eq_true; rewrite !Qltb_true, Z; reflexivity). rewrite ?Q'. reflexivity. }
  rewrite O. destruct (negb _); [auto|]. rewrite !andb_true_iff, !Qleb_true. unfold vnorm2, vdot, vsub. cbn [vx vy]. rewrite A1, A2. auto.
Qed.
Lemma found_edge E m t : In E bounds -> In m ms -> In t (mh_bdry m) -> near_de E (bdry_de m t) = true -> on_de E (bdry_de m t) = true -> In (ed_id t, bdry_de m t) (neighbour_edges ms E).
Proof.
  intros HE Hm Ht A B. apply neighbour_edges_in. split; [|split; assumption]. apply in_flat_map. exists m. split; [exact Hm|]. unfold named. apply in_map_iff. exists t. auto.
Qed.
Lemma twin_complete e m t : In e (ms_front st) -> In m ms -> In t (mh_bdry m) -> coincide (ms_pos st) e m t -> twin_of tw (be_id e) = Some (ed_id t).
Proof.
  intros I Hm Ht [C1 C2]. destruct (front_edge e I) as (p & l & h & Hp & N & C & L1 & L2 & L3 & [P1 P2] & W). rewrite (twin_nth _ _ N). clear N.
  destruct (pair_cases ms bounds p Hp) as [(E & HE & EN & ->)|(E & m' & t' & HE & Hm' & Ht' & HN & ->)]; cbn [fst snd] in *.
  - exfalso. assert (X : near_de E (bdry_de m t) = true /\ on_de E (bdry_de m t) = true).
    { apply (piece_found E (bdry_de m t) h l); [lra|lra| |]; cbn [bdry_de de_a de_b].
      - apply (veq_trans _ (ms_pos st (be_v2 e))); [apply veq_sym; exact C2|exact P2].
      - apply (veq_trans _ (ms_pos st (be_v1 e))); [apply veq_sym; exact C1|exact P1]. }
    assert (Y := found_edge E m t HE Hm Ht (proj1 X) (proj2 X)). rewrite EN in Y. destruct Y.
  - destruct (W ltac:(discriminate)) as [W0 W1]. assert (Q1 := at0 _ _ _ _ W0 P1). assert (Q2 := at1 _ _ _ _ W1 P2). cbn [bdry_de de_ends swap_edge fst snd de_a de_b] in Q1, Q2.
    assert (V1 : veq (mh_pos m' (ed_1 t')) (mh_pos m (ed_1 t))) by (apply (veq_trans _ (ms_pos st (be_v2 e))); [apply veq_sym; exact Q2|exact C2]).
    assert (V2 : veq (mh_pos m' (ed_2 t')) (mh_pos m (ed_2 t))) by (apply (veq_trans _ (ms_pos st (be_v1 e))); [apply veq_sym; exact Q1|exact C1]).
    f_equal. destruct (Nat.eq_dec (ed_id t') (ed_id t)) as [Q|NE]; [exact Q|exfalso].
    destruct (proj1 (neighbour_edges_in ms E _) HN) as (_ & NA & ON). cbn [snd] in NA, ON.
    assert (HN' : In (ed_id t, bdry_de m t) (neighbour_edges ms E)).
    { apply found_edge; try assumption; [exact (near_veq E (bdry_de m' t') (bdry_de m t) V1 V2 NA)|]. unfold on_de in *. apply andb_true_iff in ON. destruct ON as [O1 O2].
      cbn [bdry_de de_a de_b] in *. rewrite (orient_veq _ _ _ _ V1 O1), (orient_veq _ _ _ _ V2 O2). reflexivity. }
    assert (A := neighbour_pair ms bounds E _ HE HN). assert (B := neighbour_pair ms bounds E _ HE HN'). cbn [fst snd] in A, B.
    destruct (ForallOrdPairs_In pairs_apart _ _ A B) as [Q|[Q|Q]]; [injection Q; intros; contradiction| |];
      revert Q; apply self_contact; cbn [fst snd swap_edge de_ends bdry_de de_a de_b]; try assumption; apply veq_sym; assumption.
Qed.
End Prepared.
