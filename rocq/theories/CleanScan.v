(* The scan over all quads and the complete passes. *)
From Coq Require Import Lia Permutation Lqa Setoid Relations.
From Verif Require Import Base GeomModel FacetModel UtilModel AdvanceModel Chain AdvanceProofs MeshModel MeshSpec MeshProofs
  QRefineModel QRefineSpec QRefineShape QRefineConf MeshProps CleanSpec CleanModel MergeProofs CleanProofs CleanPass.

Lemma marked_cons mk i j : marked (j :: mk) i = (Z.eqb i j || marked mk i)%bool.
Proof. reflexivity. Qed.

(* indices of the elements *)
Lemma index_quad m old k q : conforming m -> nth_error (mh_quads m) k = Some q -> element_indices m old (fa_id q) = Z.of_nat k.
Proof.
  intros C H. assert (N := cf_ids _ C). unfold facets in N. destruct (nodup_ids_app fa_id _ _ N) as [NQ [NT NX]].
  unfold element_indices. rewrite number_from_notin.
  - rewrite (number_from_in (map fa_id (mh_quads m)) 0 old k (fa_id q) NQ); [lia|]. apply map_nth_error. exact H.
  - intros X. apply in_map_iff in X. destruct X as [t [E Ht]]. apply (NX q t); [apply nth_error_In in H; exact H|exact Ht|congruence].
Qed.
Lemma index_tri m old k t : conforming m -> nth_error (mh_tris m) k = Some t ->
  element_indices m old (fa_id t) = (Z.of_nat (length (mh_quads m)) + Z.of_nat k)%Z.
Proof.
  intros C H. assert (N := cf_ids _ C). unfold facets in N. destruct (nodup_ids_app fa_id _ _ N) as [NQ [NT NX]].
  unfold element_indices. apply (number_from_in (map fa_id (mh_tris m))); [exact NT|]. apply map_nth_error. exact H.
Qed.
Lemma index_inj m old f g : conforming m -> In f (facets m) -> In g (facets m) ->
  element_indices m old (fa_id f) = element_indices m old (fa_id g) -> f = g.
Proof.
  intros C Hf Hg E. apply in_app_or in Hf. apply in_app_or in Hg.
  assert (B : forall (k : nat) (x : facet) l, nth_error l k = Some x -> (k < length l)%nat) by (intros k x l H; apply nth_error_Some; congruence).
  destruct Hf as [Hf|Hf], Hg as [Hg|Hg]; apply In_nth_error in Hf; apply In_nth_error in Hg; destruct Hf as [i Hf], Hg as [j Hg].
  - rewrite (index_quad m old i f C Hf), (index_quad m old j g C Hg) in E. assert (i = j) by lia. subst. congruence.
  - rewrite (index_quad m old i f C Hf), (index_tri m old j g C Hg) in E. apply B in Hf. lia.
  - rewrite (index_tri m old i f C Hf), (index_quad m old j g C Hg) in E. apply B in Hg. lia.
  - rewrite (index_tri m old i f C Hf), (index_tri m old j g C Hg) in E. assert (i = j) by lia. subst. congruence.
Qed.

(* after a marked quad nothing is found any more *)
Lemma scan_stuck quad4 m idx i mk qs : marked mk i = true -> scan_doubles quad4 m idx i mk qs = Ok [].
Proof. intros H. induction qs as [|q r IH]; [reflexivity|]. cbn [scan_doubles]. rewrite H. exact IH. Qed.

Section Scan.
Variable quad4 : bool.
Variable m : mesh.
Hypothesis S : sound m.
Hypothesis L : linked m.
Let C := sd_conf _ S.
Let idx := element_indices m (fun _ => 0%Z).

Lemma scan_ok qs : forall pre mk, mh_quads m = pre ++ qs ->
  exists ds, scan_doubles quad4 m idx (Z.of_nat (length pre)) mk qs = Ok ds /\
    (forall d, In d ds -> exists v1 v3 o, pairing quad4 m d v1 v3 o) /\ disjoint_doubles ds /\
    (forall d, In d ds -> marked mk (idx (fa_id (db_q d))) = false /\ marked mk (idx (fa_id (db_n d))) = false).
Proof.
  induction qs as [|q qs IH]; intros pre mk E.
  - exists []. split; [reflexivity|]. split; [intros d []|]. split; [constructor|intros d []].
  - cbn [scan_doubles]. destruct (marked mk (Z.of_nat (length pre))) eqn:M.
    { rewrite (scan_stuck quad4 m idx _ _ qs M). exists []. split; [reflexivity|]. split; [intros d []|]. split; [constructor|intros d []]. }
    assert (Hq : In q (mh_quads m)) by (rewrite E; apply in_or_app; right; left; reflexivity).
    assert (IQ : idx (fa_id q) = Z.of_nat (length pre)).
    { apply index_quad; [exact C|]. rewrite E. rewrite nth_error_app2 by lia. rewrite Nat.sub_diag. reflexivity. }
    assert (NX : (Z.of_nat (length pre) + 1)%Z = Z.of_nat (length (pre ++ [q]))) by (rewrite app_length; cbn; lia).
    assert (E' : mh_quads m = (pre ++ [q]) ++ qs) by (rewrite <- app_assoc; exact E).
    destruct (first_double_ok quad4 m idx S L mk q Hq (turns (fa_sh q)) (fun t Ht => Ht)) as [[d [v1 [v3 [o [F [P [Q MN]]]]]]]|[F _]]; rewrite F; cbn [obind].
    + rewrite NX. destruct (IH (pre ++ [q]) (idx (fa_id q) :: idx (fa_id (db_n d)) :: mk) E') as [ds [Sc [PA [DJ MK]]]]. rewrite Sc. cbn [obind].
      exists (d :: ds). split; [reflexivity|]. split; [|split].
      * intros x [<-|Hx]; [eauto|exact (PA x Hx)].
      * unfold disjoint_doubles. cbn [flat_map app].
        assert (NI : forall f, f = q \/ f = db_n d -> ~ In (fa_id f) (flat_map (fun d => [fa_id (db_q d); fa_id (db_n d)]) ds)).
        { intros f Hf X. apply in_flat_map in X. destruct X as [x [Hx X]]. destruct (MK x Hx) as [M1 M2]. rewrite !marked_cons in M1, M2.
          apply orb_false_elim in M1. destruct M1 as [M1 M1']. apply orb_false_elim in M1'. destruct M1' as [M1' _].
          apply orb_false_elim in M2. destruct M2 as [M2 M2']. apply orb_false_elim in M2'. destruct M2' as [M2' _].
          apply Z.eqb_neq in M1, M1', M2, M2'. destruct Hf; subst f; destruct X as [X|[X|[]]]; rewrite X in *; congruence. }
        rewrite Q. constructor; [|constructor; [apply NI; auto|exact DJ]].
        intros [X|X]; [|revert X; apply NI; auto]. rewrite <- Q in X. exact (pg_ids_neq quad4 m d v1 v3 o S P (eq_sym X)).
      * intros x [<-|Hx]; [rewrite Q; split; [rewrite IQ; exact M|exact MN]|]. destruct (MK x Hx) as [M1 M2]. rewrite !marked_cons in M1, M2.
        apply orb_false_elim in M1. destruct M1 as [_ M1]. apply orb_false_elim in M1. destruct M1 as [_ M1].
        apply orb_false_elim in M2. destruct M2 as [_ M2]. apply orb_false_elim in M2. destruct M2 as [_ M2]. auto.
    + rewrite NX. exact (IH (pre ++ [q]) mk E').
Qed.

(* an empty result means that there is no doubled pair of this kind *)
Lemma scan_none qs : forall i, scan_doubles quad4 m idx i [] qs = Ok [] -> incl qs (mh_quads m) ->
  forall q n v1 v2 v3, In q qs -> In n (facets m) -> doubled_at q n v1 v2 v3 -> kind quad4 n -> False.
Proof.
  induction qs as [|q qs IH]; intros i H I x n v1 v2 v3 Hx Hn D K; [exact Hx|].
  cbn [scan_doubles marked existsb] in H. assert (Hq : In q (mh_quads m)) by (apply I; left; reflexivity).
  destruct (first_double_ok quad4 m idx S L [] q Hq (turns (fa_sh q)) (fun t Ht => Ht)) as [[d [v1' [v3' [o [F _]]]]]|[F N]]; rewrite F in H; cbn [obind] in H.
  - destruct (scan_doubles quad4 m idx (i + 1)%Z _ qs); cbn [obind] in H; discriminate.
  - destruct Hx as [<-|Hx]; [|exact (IH (i + 1)%Z H (fun y Hy => I y (or_intror Hy)) x n v1 v2 v3 Hx Hn D K)].
    assert (R : exists v4, In (v1, v2, v3, v4) (turns (fa_sh q))).
    { destruct D as [D1 [D2 _]]. destruct (cf_quads _ C q Hq) as [a [b [c [e E]]]].
      assert (ND := cf_corners _ C q (in_or_app _ _ _ (or_introl Hq))).
      destruct (two_sides q v3 v2 v1 ND D1 D2) as [[w R]|R]; [exists w; apply rot4_turns; exact R|].
      exfalso. destruct R as [R|[R|R]]; rewrite R in E; discriminate. }
    destruct R as [v4 R]. discriminate (N v1 v2 v3 v4 n R Hn D K).
Qed.
End Scan.

(* ---------- complete passes ---------- *)
Lemma flat_single {A B} (f : A -> B) l : flat_map (fun x => [f x]) l = map f l.
Proof. induction l as [|a l IH]; [reflexivity|]. cbn [flat_map map app]. rewrite IH. reflexivity. Qed.
Lemma flat_none {A B} (l : list A) : flat_map (fun _ => @nil B) l = [].
Proof. induction l as [|a l IH]; [reflexivity|exact IH]. Qed.

Definition pass (quad4 : bool) (m : mesh) : outcome mesh :=
  obind (scan_doubles quad4 m (element_indices m (fun _ => 0%Z)) 0 [] (mh_quads m)) (fun ds =>
  obind (batch quad4 m ds) (fun m1 => Ok (setup_facet_connectivity m1))).
Lemma pass_quads init m : clear_double_quads init m = pass true (if init then setup_facet_connectivity m else m).
Proof.
  unfold clear_double_quads, pass. destruct (scan_doubles true _ _ _ _ _) as [ds| |]; cbn [obind]; try reflexivity.
  unfold batch. change (ofold (new_facet true)) with (ofold new_quad).
  destruct (ofold new_quad ds _) as [m1| |]; cbn [obind]; try reflexivity. change (t_ids true) with (fun _ : double => @nil nat). rewrite flat_none. reflexivity.
Qed.
Lemma pass_tris init m : clear_double_tris init m = pass false (if init then setup_facet_connectivity m else m).
Proof.
  unfold clear_double_tris, pass. destruct (scan_doubles false _ _ _ _ _) as [ds| |]; cbn [obind]; try reflexivity.
  unfold batch. change (ofold (new_facet false)) with (ofold new_tri).
  destruct (ofold new_tri ds _) as [m1| |]; cbn [obind]; try reflexivity.
Qed.

(* pairs of the given kind *)
Definition clear_of (quad4 : bool) (m : mesh) : Prop :=
  forall q n v1 v2 v3, In q (mh_quads m) -> In n (facets m) -> doubled_at q n v1 v2 v3 -> ~ kind quad4 n.

Lemma pass_keeps quad4 m : sound m -> linked m ->
  exists m' ds, pass quad4 m = Ok m' /\ keeps m m' /\ linked m' /\
    (length (facets m') + length ds = length (facets m))%nat /\ (ds = [] -> clear_of quad4 m') /\
    (forall d, In d ds -> exists v1 v3 o, pairing quad4 m d v1 v3 o) /\ disjoint_doubles ds /\
    (forall v, In v (mh_verts m') <-> In v (mh_verts m) /\ ~ In v (map db_v ds)) /\
    (forall d e, In d ds -> In e (mh_bdry m) -> ed_1 e <> db_v d /\ ed_2 e <> db_v d).
Proof.
  intros S L. destruct (scan_ok quad4 m S L (mh_quads m) [] [] eq_refl) as [ds [Sc [PA [DJ _]]]]. cbn [length Z.of_nat] in Sc.
  destruct (steps_keep quad4 ds m S PA DJ) as [m1 [E [K [LE [V B]]]]].
  exists (setup_facet_connectivity m1), ds. unfold pass. rewrite Sc. cbn [obind].
  assert (BA : batch quad4 m ds = Ok m1).
  { rewrite batch_steps; [exact E|]. intros d Hd i Hi. destruct (PA d Hd) as [v1 [v3 [o P]]].
    assert (X := ad_fnext _ (sd_addr _ S) (db_q d) (pg_in_q _ _ _ _ _ _ P)). assert (Y := ad_fnext _ (sd_addr _ S) (db_n d) (pg_in_n _ _ _ _ _ _ P)).
    unfold q_ids, t_ids in Hi. destruct quad4; cbn [app In] in Hi; intuition lia. }
  rewrite BA. cbn [obind]. split; [reflexivity|]. split; [exact (keeps_trans _ _ _ K (setup_keeps m1 (kp_sound _ _ K)))|].
  split; [exact (setup_linked m1 (kp_sound _ _ K))|]. split; [exact LE|]. split; [|split; [exact PA|split; [exact DJ|split; [exact V|exact B]]]].
  intros ->. cbn in E. injection E as <-. intros q n v1 v2 v3 Hq Hn D K'.
  exact (scan_none quad4 m S L (mh_quads m) 0%Z Sc (incl_refl _) q n v1 v2 v3 Hq Hn D K').
Qed.
