(* Proofs about the connection of boundary edges with those of neighbour meshes. *)
From Coq Require Import Lia Lqa Permutation.
From Verif Require Import Base Chain GeomModel GeomSpec GeomProofs UtilModel BdryModel BdrySpec BdryProofs AdvanceModel AdvanceSpec AdvanceProofs MeshModel
  FrontModel FrontSpec FrontProofs RefineProofs InitProofs MergerModel FinModel WindSpec ClearSpec ClearStart TwinModel.
From Verif Require GlueProofs.
Open Scope Q_scope.

(* ---- neighbour edges with and without addresses ---- *)
Lemma named_snd m : map snd (named m) = bdry_des m.
Proof. unfold named, bdry_des. rewrite map_map. reflexivity. Qed.
Lemma named_fst m : map fst (named m) = map ed_id (mh_bdry m).
Proof. unfold named. rewrite map_map. reflexivity. Qed.
Lemma ins_named_snd v e l : map snd (ins_named v e l) = ins_de v (snd e) (map snd l).
Proof. induction l as [|f l IH]; [reflexivity|]. cbn [ins_named ins_de map]. destruct (Qltb _ _); cbn [map]; [rewrite IH|]; reflexivity. Qed.
Lemma sort_named_snd v l : map snd (sort_named v l) = sort_de v (map snd l).
Proof. induction l as [|f l IH]; [reflexivity|]. unfold sort_named, sort_de in *. cbn [fold_right map]. rewrite ins_named_snd, IH. reflexivity. Qed.
Lemma filter_snd {A B} (g : B -> bool) (l : list (A * B)) : map snd (filter (fun n => g (snd n)) l) = filter g (map snd l).
Proof. induction l as [|x l IH]; [reflexivity|]. cbn [filter map]. destruct (g (snd x)); cbn [map]; rewrite IH; reflexivity. Qed.
Lemma neighbour_edges_snd ms e : map snd (neighbour_edges ms e) = neighbours (map bdry_des ms) e.
Proof.
  unfold neighbour_edges, neighbours. assert (G : forall acc, map snd (fold_left (fun acc m => sort_named (de_a e) (acc ++ filter (fun n => on_de e (snd n)) (filter (fun n => near_de e (snd n)) (named m)))) ms acc) =
    fold_left (fun acc m => sort_de (de_a e) (acc ++ filter (on_de e) (filter (near_de e) m))) (map bdry_des ms) (map snd acc)); [|exact (G [])].
  induction ms as [|m ms IH]; intros acc; [reflexivity|]. cbn [fold_left map]. rewrite IH. f_equal. rewrite sort_named_snd, map_app, !filter_snd, named_snd. reflexivity.
Qed.
Lemma ins_named_perm v e l : Permutation (ins_named v e l) (e :: l).
Proof. induction l as [|f l IH]; [reflexivity|]. cbn [ins_named]. destruct (Qltb _ _); [|reflexivity]. rewrite IH. apply perm_swap. Qed.
Lemma sort_named_perm v l : Permutation (sort_named v l) l.
Proof. induction l as [|f l IH]; [reflexivity|]. unfold sort_named in *. cbn [fold_right]. rewrite ins_named_perm, IH. reflexivity. Qed.
Lemma neighbour_edges_perm ms e :
  Permutation (neighbour_edges ms e) (filter (fun n => on_de e (snd n)) (filter (fun n => near_de e (snd n)) (flat_map named ms))).
Proof.
  unfold neighbour_edges.
  assert (G : forall acc, Permutation
    (fold_left (fun acc m => sort_named (de_a e) (acc ++ filter (fun n => on_de e (snd n)) (filter (fun n => near_de e (snd n)) (named m)))) ms acc)
    (acc ++ filter (fun n => on_de e (snd n)) (filter (fun n => near_de e (snd n)) (flat_map named ms)))); [|exact (G [])].
  induction ms as [|m ms IH]; intros acc; cbn [fold_left flat_map]; [cbn; rewrite app_nil_r; apply Permutation_refl|].
  rewrite IH, !filter_app, app_assoc. apply Permutation_app_tail. apply sort_named_perm.
Qed.
Lemma neighbour_edges_in ms e n : In n (neighbour_edges ms e) <-> In n (flat_map named ms) /\ near_de e (snd n) = true /\ on_de e (snd n) = true.
Proof.
  split.
  - intros H. apply (Permutation_in _ (neighbour_edges_perm ms e)) in H. apply filter_In in H. destruct H as [H A]. apply filter_In in H. destruct H. auto.
  - intros (A & B & C). apply (Permutation_in _ (Permutation_sym (neighbour_edges_perm ms e))). apply filter_In. split; [apply filter_In; split; assumption|exact C].
Qed.

(* ---- the edges of the front with their partners ---- *)
Definition pairs_of (ms : list mesh) (e : dedge) : list (vec2 * vec2 * Z * option nat) :=
  match neighbour_edges ms e with
  | [] => [((de_ends e, de_col e), None)]
  | ns => map (fun n => ((swap_edge (de_ends (snd n)), de_col (snd n)), Some (fst n))) ns
  end.
Lemma pairs_wanted ms e : map fst (pairs_of ms e) = wanted (map bdry_des ms) e.
Proof.
  unfold pairs_of, wanted. rewrite <- neighbour_edges_snd. destruct (neighbour_edges ms e) as [|n ns]; [reflexivity|]. cbn [map]. rewrite !map_map. reflexivity.
Qed.
Lemma pairs_refs ms e : map snd (pairs_of ms e) = refs_of ms e.
Proof. unfold pairs_of, refs_of. destruct (neighbour_edges ms e) as [|n ns]; [reflexivity|]. cbn [map]. rewrite map_map. reflexivity. Qed.
Lemma map_flat_map {A B C} (g : B -> C) (f : A -> list B) l : map g (flat_map f l) = flat_map (fun x => map g (f x)) l.
Proof. induction l as [|a l IH]; [reflexivity|]. cbn [flat_map]. rewrite map_app, IH. reflexivity. Qed.
Lemma all_wanted ms bounds : map fst (flat_map (pairs_of ms) bounds) = flat_map (wanted (map bdry_des ms)) bounds.
Proof. rewrite map_flat_map. apply flat_map_ext. apply pairs_wanted. Qed.
Lemma all_refs ms bounds : map snd (flat_map (pairs_of ms) bounds) = flat_map (refs_of ms) bounds.
Proof. rewrite map_flat_map. apply flat_map_ext. apply pairs_refs. Qed.
Lemma pairs_flags ms e : map fst (flags_of (map bdry_des ms) e) = map is_some (refs_of ms e).
Proof.
  unfold flags_of, refs_of. rewrite <- neighbour_edges_snd. destruct (neighbour_edges ms e) as [|n ns]; [reflexivity|]. cbn [map fst is_some]. f_equal. rewrite !map_map. reflexivity.
Qed.
Lemma collected_twins bounds fixed ms :
  map fe_twin (fd_edges (collect_front_edges bounds fixed (map bdry_des ms))) = map is_some (twin_refs bounds fixed ms).
Proof.
  destruct (collect_spec bounds fixed (map bdry_des ms)) as (_ & _ & _ & F). apply (f_equal (map fst)) in F. rewrite map_map in F. change (fun x => fst (flags x)) with fe_twin in F. rewrite F.
  unfold twin_refs. rewrite !map_app, !map_map. f_equal. rewrite !map_flat_map. apply flat_map_ext. apply pairs_flags.
Qed.

(* ---- the chain of each edge has its partner ---- *)
Lemma tags_refs sub pos tw n refs : forall fs css rs k pre,
  Forall2 (tagged sub pos tw n) (init_edges k fs) css -> Forall2 (fun f e => is_twin tw e = fe_twin f) fs (init_edges k fs) ->
  map fe_twin fs = map is_some rs -> length pre = k -> refs = pre ++ rs -> n = length refs ->
  Forall2 (fun r cs => Forall (fun c => front_twin refs c = r) cs) rs css.
Proof.
  induction fs as [|f fs IH]; intros css rs k pre T W F L E N.
  - destruct rs; [|discriminate]. inversion T. constructor.
  - destruct rs as [|r rs]; [discriminate|]. cbn [map] in F. injection F as F1 F2. cbn [init_edges] in T, W. inversion T as [|? cs ? css' [T1 T2] T']; subst css. inversion W as [|? ? ? ? W1 W']; subst. constructor.
    + apply Forall_forall. intros c Hc.
      assert (OWN : forall a b d p, front_twin (pre ++ r :: rs) (BE (length pre) a b d p) = r).
      { intros. unfold front_twin. cbn [be_id]. rewrite app_nth2 by lia. rewrite Nat.sub_diag. reflexivity. }
      destruct (T2 c Hc) as [-> |X]; [apply OWN|]. destruct r as [i|].
      * exfalso. rewrite T1 in Hc.
        -- destruct Hc as [<-|[]]. cbn [be_id] in X. rewrite app_length in X. cbn in X. lia.
        -- unfold inner. rewrite W1, F1. reflexivity.
      * unfold front_twin. apply nth_overflow. exact X.
    + apply (IH css' rs (S (length pre)) (pre ++ [r])); try assumption.
      * rewrite app_length. cbn. lia.
      * rewrite <- app_assoc. reflexivity.
      * reflexivity.
Qed.

(* ---- pointers ---- *)
Definition point_to (o : option nat) (e : medge) : medge :=
  match o with Some j => ED (ed_id e) (ed_1 e) (ed_2 e) (ed_col e) (ed_prop e) (ed_l e) (ed_r e) (Some j) | None => e end.
Definition link (f : nat -> option nat) (m : mesh) : mesh := set_bdry m (map (fun e => point_to (f (ed_id e)) e) (mh_bdry m)).
(* the last place of [Some i] in a list *)
Fixpoint last_at (b : nat) (l : list (option nat)) (i : nat) : option nat :=
  match l with
  | [] => None
  | x :: r => match last_at (S b) r i with
              | Some j => Some j
              | None => match x with Some k => if Nat.eqb i k then Some b else None | None => None end
              end
  end.
Definition over (f g : nat -> option nat) (i : nat) : option nat := match f i with Some j => Some j | None => g i end.
Lemma point_id o e : ed_id (point_to o e) = ed_id e.
Proof. destruct o; reflexivity. Qed.
Lemma link_ext f g m : (forall i, f i = g i) -> link f m = link g m.
Proof. intros H. unfold link. f_equal. apply map_ext. intros e. rewrite H. reflexivity. Qed.
Lemma link_none m : link (fun _ => None) m = m.
Proof. unfold link, point_to. rewrite map_id. destruct m. reflexivity. Qed.
Lemma link_link f g m : link f (link g m) = link (over f g) m.
Proof.
  unfold link. cbn [set_bdry mh_bdry]. rewrite map_map. unfold set_bdry. cbn. f_equal. apply map_ext. intros e. rewrite point_id. unfold over.
  destruct (f (ed_id e)) as [j|], (g (ed_id e)) as [k|]; reflexivity.
Qed.
Lemma retwin_link i j m : retwin_mesh i j m = link (fun x => if Nat.eqb x i then Some j else None) m.
Proof. unfold retwin_mesh, link. f_equal. apply map_ext. intros e. unfold retwin, point_to. destruct (Nat.eqb (ed_id e) i); reflexivity. Qed.
Lemma mark_link fbase refs : forall k ms, mark_twin_edges fbase k refs ms = map (link (last_at (fbase + k) refs)) ms.
Proof.
  induction refs as [|[i|] refs IH]; intros k ms; cbn [mark_twin_edges].
  - symmetry. rewrite <- (map_id ms) at 2. apply map_ext. intros m. cbn [last_at]. apply link_none.
  - rewrite IH. unfold retwin_all. rewrite map_map. apply map_ext. intros m. rewrite retwin_link, link_link. apply link_ext. intros x. unfold over. cbn [last_at]. rewrite Nat.add_succ_r. reflexivity.
  - rewrite IH. apply map_ext. intros m. apply link_ext. intros x. cbn [last_at]. rewrite Nat.add_succ_r. destruct (last_at _ _ _); reflexivity.
Qed.
Lemma connect_link refs nbase es : forall j ms, connect refs nbase j es ms =
  (map (front_twin refs) es, map (link (last_at (nbase + j) (map (front_twin refs) es))) ms).
Proof.
  induction es as [|e es IH]; intros j ms; cbn [connect].
  - cbn [map last_at]. f_equal. symmetry. rewrite <- (map_id ms) at 2. apply map_ext. intros m. apply link_none.
  - rewrite IH. cbn [map]. f_equal. destruct (front_twin refs e) as [i|].
    + unfold retwin_all. rewrite map_map. apply map_ext. intros m. rewrite retwin_link, link_link. apply link_ext. intros x. unfold over. cbn [last_at]. rewrite Nat.add_succ_r. reflexivity.
    + apply map_ext. intros m. apply link_ext. intros x. cbn [last_at]. rewrite Nat.add_succ_r. destruct (last_at _ _ _); reflexivity.
Qed.
Lemma last_at_some l : forall b i j, last_at b l i = Some j -> exists p, j = (b + p)%nat /\ nth_error l p = Some (Some i).
Proof.
  induction l as [|x l IH]; intros b i j H; [discriminate|]. cbn [last_at] in H. destruct (last_at (S b) l i) as [k|] eqn:E.
  - injection H as <-. destruct (IH _ _ _ E) as (p & -> & P). exists (S p). split; [lia|exact P].
  - destruct x as [k|]; [|discriminate]. destruct (Nat.eqb_spec i k) as [-> |]; [|discriminate]. injection H as <-. exists O. split; [lia|reflexivity].
Qed.
Lemma last_at_none l : forall b i, last_at b l i = None <-> ~ In (Some i) l.
Proof.
  induction l as [|x l IH]; intros b i; cbn [last_at]; [split; [intros _ []|reflexivity]|]. destruct (last_at (S b) l i) as [k|] eqn:E.
  - split; [discriminate|]. intros N. exfalso. destruct (last_at_some _ _ _ _ E) as (p & _ & P). apply N. right. exact (nth_error_In _ _ P).
  - apply IH in E. destruct x as [k|].
    + destruct (Nat.eqb_spec i k) as [-> |N]; [split; [discriminate|intros X; exfalso; apply X; left; reflexivity]|]. split; [|reflexivity]. intros _ [X|X]; [congruence|exact (E X)].
    + split; [|reflexivity]. intros _ [X|X]; [discriminate|exact (E X)].
Qed.
Definition somes (l : list (option nat)) : list nat := flat_map (fun o => match o with Some i => [i] | None => [] end) l.
Lemma somes_in l i : In i (somes l) <-> In (Some i) l.
Proof.
  unfold somes. rewrite in_flat_map. split.
  - intros ([k|] & A & B); [|destruct B]. destruct B as [<-|[]]. exact A.
  - intros H. exists (Some i). split; [exact H|left; reflexivity].
Qed.
Lemma somes_once l : NoDup (somes l) -> forall p q i, nth_error l p = Some (Some i) -> nth_error l q = Some (Some i) -> p = q.
Proof.
  induction l as [|x l IH]; intros N p q i P Q; [destruct p; discriminate|].
  assert (TL : NoDup (somes l)) by (destruct x; [apply NoDup_cons_iff in N; apply N|exact N]).
  assert (HD : forall k r, nth_error l r = Some (Some k) -> x <> Some k).
  { intros k r R ->. apply NoDup_cons_iff in N. destruct N as [N _]. apply N. apply somes_in. exact (nth_error_In _ _ R). }
  destruct p as [|p], q as [|q]; cbn [nth_error] in *; [reflexivity|injection P as ->; destruct (HD i q Q eq_refl)|injection Q as ->; destruct (HD i p P eq_refl)|].
  f_equal. exact (IH TL p q i P Q).
Qed.
Lemma last_at_once l b p i : NoDup (somes l) -> nth_error l p = Some (Some i) -> last_at b l i = Some (b + p)%nat.
Proof.
  intros N P. destruct (last_at b l i) as [j|] eqn:E.
  - destruct (last_at_some _ _ _ _ E) as (q & -> & Q). rewrite (somes_once l N p q i P Q). reflexivity.
  - exfalso. apply last_at_none in E. apply E. exact (nth_error_In _ _ P).
Qed.

(* ---- points of a segment are found ---- *)
Lemma sq2_nonneg u v : 0 <= u * u + v * v.
Proof. nra. Qed.
Lemma on_seg_found a b s p : 0 <= s <= 1 -> veq p (on_seg a b s) -> in_on_segment a b p = true.
Proof.
  intros S [X Y]. unfold on_seg in X, Y. cbn [vx vy] in X, Y. unfold in_on_segment, orientation.
  assert (A : area2 a b p == 0) by (unfold area2; rewrite X, Y; ring).
  assert (L : Qltb (area2 a b p * area2 a b p) small = true) by (apply Qltb_true; rewrite A; reflexivity).
  rewrite L. cbn [orient_eqb negb]. apply andb_true_iff. rewrite !Qleb_true. unfold vnorm2, vdot, vsub. cbn [vx vy]. rewrite X, Y.
  assert (D : 0 <= (vx b - vx a) * (vx b - vx a) + (vy b - vy a) * (vy b - vy a)) by apply sq2_nonneg.
  assert (E : (vx a + s * (vx b - vx a) - vx a) * (vx b - vx a) + (vy a + s * (vy b - vy a) - vy a) * (vy b - vy a) == s * ((vx b - vx a) * (vx b - vx a) + (vy b - vy a) * (vy b - vy a))) by ring.
  rewrite E. revert D. generalize ((vx b - vx a) * (vx b - vx a) + (vy b - vy a) * (vy b - vy a)). intros z D. clear - S D. split; nra.
Qed.
Lemma piece_found e f l h : 0 <= l <= 1 -> 0 <= h <= 1 -> veq (de_a f) (on_seg (de_a e) (de_b e) l) -> veq (de_b f) (on_seg (de_a e) (de_b e) h) ->
  near_de e f = true /\ on_de e f = true.
Proof.
  intros L H A B. split; [|unfold on_de; rewrite (on_seg_found _ _ l _ L A), (on_seg_found _ _ h _ H B); reflexivity].
  unfold near_de, within. apply Qleb_true. destruct A as [A1 A2], B as [B1 B2]. unfold on_seg in A1, A2, B1, B2. cbn [vx vy] in A1, A2, B1, B2.
  unfold de_mid, vnorm2, vdot, vsub, vscale, vadd. cbn [vx vy]. rewrite A1, A2, B1, B2.
  set (x := vx (de_a e)). set (y := vy (de_a e)). set (u := vx (de_b e)). set (v := vy (de_b e)).
  assert (E : ((1 # 2) * (x + l * (u - x) + (x + h * (u - x))) - (1 # 2) * (x + u)) * ((1 # 2) * (x + l * (u - x) + (x + h * (u - x))) - (1 # 2) * (x + u)) +
    ((1 # 2) * (y + l * (v - y) + (y + h * (v - y))) - (1 # 2) * (y + v)) * ((1 # 2) * (y + l * (v - y) + (y + h * (v - y))) - (1 # 2) * (y + v)) ==
    ((1 # 2) * (l + h) - (1 # 2)) * ((1 # 2) * (l + h) - (1 # 2)) * ((u - x) * (u - x) + (v - y) * (v - y))) by ring.
  rewrite E. assert (D : 0 <= (u - x) * (u - x) + (v - y) * (v - y)) by apply sq2_nonneg. revert D. generalize ((u - x) * (u - x) + (v - y) * (v - y)). intros z D.
  assert (M : ((1 # 2) * (l + h) - (1 # 2)) * ((1 # 2) * (l + h) - (1 # 2)) <= 9 # 4) by nra. revert M. generalize (((1 # 2) * (l + h) - (1 # 2)) * ((1 # 2) * (l + h) - (1 # 2))). intros w M. clear - M D. nra.
Qed.

(* ---- the prepared front, edge by edge ---- *)
Definition partner := (vec2 * vec2 * Z * option nat)%type.
Definition from_partner (pos : nat -> vec2) (base : nat -> Prop) (refs : list (option nat)) (p : partner) (cs : list bedge) : Prop :=
  chain pos base (fst (fst p)) cs /\ Forall (fun c => front_twin refs c = snd p /\ be_col c = snd (fst p)) cs /\ (snd p <> None -> length cs = 1%nat).

Lemma collect_split bounds fixed ms :
  (forall e, In e bounds -> de_fix e = false) -> (forall e, In e fixed -> de_fix e = true) ->
  (forall e, In e (concat (map bdry_des ms)) -> de_fix e = false) ->
  let d := collect_front_edges bounds fixed (map bdry_des ms) in
  exists fs1 fs2, fd_edges d = fs1 ++ fs2 /\
    Forall2 (fun f p => matches (fd_verts d) f (fst p) /\ fe_twin f = is_some (snd p)) fs1 (flat_map (pairs_of ms) bounds) /\
    (forall f, In f fs1 -> fe_fix f = false) /\ (forall f, In f fs2 -> fe_fix f = true).
Proof.
  intros HB HF HM d. destruct (collect_spec bounds fixed (map bdry_des ms)) as (_ & _ & M & FL). fold d in M, FL.
  apply Forall2_app_inv_r in M. destruct M as (fs1 & fs2 & M1 & M2 & E). exists fs1, fs2. split; [exact E|]. rewrite E, map_app in FL.
  assert (L1 : length (map flags fs1) = length (flat_map (flags_of (map bdry_des ms)) bounds)).
  { rewrite map_length, (Forall2_len _ _ _ M1). clear. induction bounds as [|e es IH]; [reflexivity|]. cbn [flat_map].
    rewrite !app_length, IH. f_equal. unfold wanted, flags_of. destruct (neighbours (map bdry_des ms) e); cbn; rewrite ?map_length; reflexivity. }
  apply app_eq_len in FL; [|exact L1]. destruct FL as [FL1 FL2]. split; [|split].
  - assert (TW : map fe_twin fs1 = map (fun p : partner => is_some (snd p)) (flat_map (pairs_of ms) bounds)).
    { apply (f_equal (map fst)) in FL1. rewrite map_map in FL1. change (fun x => fst (flags x)) with fe_twin in FL1. rewrite FL1, !map_flat_map. apply flat_map_ext. intros e.
      rewrite pairs_flags, <- pairs_refs, map_map. reflexivity. }
    rewrite <- all_wanted in M1. revert M1 TW. generalize (flat_map (pairs_of ms) bounds). clear. induction fs1 as [|f fs IH]; intros ps M T.
    + destruct ps; [constructor|discriminate].
    + destruct ps as [|p ps]; [discriminate|]. cbn [map] in *. injection T as T1 T2. inversion M; subst. constructor; [split; assumption|]. apply IH; assumption.
  - intros f Hf. apply (in_map flags) in Hf. rewrite FL1 in Hf. apply in_flat_map in Hf. destruct Hf as (e & He & X).
    unfold flags_of in X. pose proof (neighbours_in (map bdry_des ms) e) as N. destruct (neighbours (map bdry_des ms) e) as [|n ns].
    + destruct X as [X|[]]. unfold flags in X. injection X as _ <-. apply (HB e He).
    + apply in_map_iff in X. destruct X as (n' & X & Hn). unfold flags in X. injection X as _ <-. apply HM. apply (N n' Hn).
  - intros f Hf. apply (in_map flags) in Hf. rewrite FL2 in Hf. apply in_map_iff in Hf. destruct Hf as (e & X & He).
    unfold flags in X. injection X as _ <-. exact (HF e He).
Qed.

Lemma front_partners bounds fixed ms sub :
  (forall p : partner, In p (flat_map (pairs_of ms) bounds) -> ~ veq (fst (fst (fst p))) (snd (fst (fst p)))) ->
  (forall e, In e bounds -> de_fix e = false) -> (forall e, In e fixed -> de_fix e = true) ->
  (forall e, In e (concat (map bdry_des ms)) -> de_fix e = false) ->
  (forall e, In e (bounds ++ fixed ++ concat (map bdry_des ms)) -> in_square front_scale (de_a e) = true /\ in_square front_scale (de_b e) = true) ->
  (forall a b, ~ veq a b -> strictly_inside a b (sub a b)) ->
  let d := collect_front_edges bounds fixed (map bdry_des ms) in
  exists css, loosened (rs_front (refined_state sub d)) = concat css /\
    Forall2 (from_partner (rs_pos (refined_state sub d)) (fun v => (v < length (fd_verts d))%nat) (twin_refs bounds fixed ms)) (flat_map (pairs_of ms) bounds) css.
Proof.
  intros PROPER HB HF HM HE HS d. assert (OK : indices_ok d) by apply collect_indices.
  assert (SQ : coords_in front_scale d).
  { apply collect_coords; [exact HE|]. intros e n Hn. exact (proj1 (neighbours_in _ _ _ Hn)). }
  destruct (refined_tags sub d OK SQ) as ((css & E & CH & TG) & P & _). set (rst := refined_state sub d) in *.
  destruct (collect_split bounds fixed ms HB HF HM) as (fs1 & fs2 & EF & M & X1 & X2). fold d in EF, M.
  assert (RF : Forall2 (fun r cs => Forall (fun c => front_twin (twin_refs bounds fixed ms) c = r) cs) (twin_refs bounds fixed ms) css).
  { apply (tags_refs sub (posn d) (twin_ids 0 (fd_edges d)) (length (fd_edges d)) (twin_refs bounds fixed ms) (fd_edges d) css (twin_refs bounds fixed ms) 0 []).
    - exact TG.
    - apply init_twins. intros; reflexivity.
    - apply collected_twins.
    - reflexivity.
    - reflexivity.
    - assert (L := f_equal (@length _) (collected_twins bounds fixed ms)). rewrite !map_length in L. exact L. }
  rewrite EF in CH. apply Forall2_app_inv_l in CH. destruct CH as (css1 & css2 & C1 & C2 & ->).
  unfold twin_refs in RF at 2. apply Forall2_app_inv_l in RF. destruct RF as (dss1 & dss2 & R1 & _ & EQ).
  assert (L : length css1 = length dss1).
  { rewrite <- (Forall2_len _ _ _ R1), <- all_refs, map_length, <- (Forall2_len _ _ _ M). symmetry. exact (Forall2_len _ _ _ C1). }
  apply app_eq_len in EQ; [|exact L]. destruct EQ as [<- _]. exists css1. split.
  - rewrite E, concat_app. unfold loosened. rewrite filter_app, filter_all, filter_none, app_nil_r; [reflexivity| |].
    + intros c Hc. apply in_concat in Hc. destruct Hc as (cs & Hcs & Hc). destruct (GlueProofs.forall2_in_r _ _ _ cs C2 Hcs) as (f & Hf & (_ & _ & _ & K)).
      rewrite Forall_forall in K. unfold is_fixed. destruct (K c Hc) as [_ ->]. rewrite (X2 f Hf). reflexivity.
    + intros c Hc. apply in_concat in Hc. destruct Hc as (cs & Hcs & Hc). destruct (GlueProofs.forall2_in_r _ _ _ cs C1 Hcs) as (f & Hf & (_ & _ & _ & K)).
      rewrite Forall_forall in K. unfold is_fixed. destruct (K c Hc) as [_ ->]. rewrite (X1 f Hf). reflexivity.
  - rewrite <- all_refs in R1. clear - M C1 R1 P PROPER HS. revert PROPER M R1. revert css1 C1. generalize (flat_map (pairs_of ms) bounds).
    induction fs1 as [|f fs IH]; intros ps css C1 PROPER M R1; inversion M as [|? p ? ps' [M1 M2] M']; subst; inversion C1 as [|? cs ? css' C C']; subst; [constructor|].
    cbn [map] in R1. inversion R1 as [|? ? ? ? R R']; subst. constructor; [|apply IH; [exact C'| |exact M'|exact R']; intros q Hq; apply PROPER; right; exact Hq].
    destruct M1 as (S1 & S2 & MC). destruct (stands_pos d _ _ _ P S1) as [V1 L1]. destruct (stands_pos d _ _ _ P S2) as [V2 L2]. split; [|split].
    + apply (chain_of_chain _ _ _ f (edge_inner sub d f) cs); try assumption; [apply PROPER; left; reflexivity|].
      unfold edge_inner. destruct (fe_twin f); [exists []; split; [cbn; lra|constructor]|].
      apply (strictly_any (posn d (fe_1 f)) (posn d (fe_2 f))).
      * rewrite <- P by exact L1. exact V1.
      * rewrite <- P by exact L2. exact V2.
      * apply HS. rewrite <- !P by assumption. intros Q. apply (PROPER p (or_introl eq_refl)).
        apply (veq_trans _ _ _ (veq_sym _ _ V1)). apply (veq_trans _ _ _ Q V2).
    + destruct C as (_ & _ & _ & K). rewrite Forall_forall in K, R. apply Forall_forall. intros c Hc. split; [exact (R c Hc)|]. rewrite <- MC. apply (K c Hc).
    + intros N. destruct C as (_ & _ & LEN & _). rewrite LEN. unfold edge_inner. rewrite M2. destruct (snd p); [reflexivity|contradiction].
Qed.
