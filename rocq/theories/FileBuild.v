(* Proofs about the text of a parameter file and the boundaries that are built from it (C67). *)
From Coq Require Import Ascii String Lia.
From Verif Require Import Base Chain CsvModel CsvProofs ParaModel ParaSpec ParaProofs ParaMatrix UtilModel BdryModel BdryProofs AppModel DomInModel DomInSpec FileModel FileSpec FileProofs.
From Verif Require ParaProps.
Open Scope list_scope.
Open Scope nat_scope.

(* ---- the text ---- *)
Lemma lines_split file raw : splits file raw -> lines_of file = raw.
Proof.
  intros (F & [->|(ls & l & -> & N & ->)]); unfold lines_of; [apply getlines_joined, F|].
  apply Forall_app in F. destruct F as [F G]. inversion G; subst. apply getlines_joined_last; assumption.
Qed.
Lemma content_stripped raw content : stripped raw content -> filter (fun l => negb (is_comment l)) raw = content.
Proof.
  intros S. induction S as [|l raw content C S IH|l raw content C S IH]; [reflexivity|..]; cbn [filter].
  - apply ParaProps.is_comment_iff in C. rewrite C. exact IH.
  - destruct (is_comment l) eqn:E; [apply ParaProps.is_comment_iff in E; contradiction|]. cbn [negb]. rewrite IH. reflexivity.
Qed.
Lemma file_read to_double files file ss : file_of to_double file ss ->
  exists xs, read_file to_double files file = Ok xs /\ Forall2 (fun s x => means to_double files (se_items s) x) ss xs.
Proof.
  intros (raw & content & final & S & C & E & F & W & R). apply (file_spec to_double files file ss final).
  - unfold read_content. rewrite (lines_split _ _ S), (content_stripped _ _ C). exact E.
  - exact F.
  - exact W.
  - apply Forall_forall. intros s I. rewrite Forall_forall in R. apply (R s I).
  - apply Forall_forall. intros s I. rewrite Forall_forall in R. apply (R s I).
Qed.

Lemma file_refused to_double files file ss : drafted to_double file ss -> (exists s, In s ss /\ ~ complete (se_items s)) -> read_file to_double files file = Throw.
Proof.
  intros (raw & content & final & S & C & E & F & W & R) (s & I & N). destruct (file_cases to_double files file ss final) as [[X _]|[_ X]]; try assumption.
  - unfold read_content. rewrite (lines_split _ _ S), (content_stripped _ _ C). exact E.
  - rewrite Forall_forall in X. destruct (N (X s I)).
Qed.

(* ---- an item says only one thing ---- *)
Lemma value_one k l t t' : value_of k l t -> value_of k l t' -> t = t'.
Proof.
  intros V V'. destruct (last_in_line k l) as (r & _ & H). destruct r as [q|].
  - apply (value_text_spec k l q H) in V, V'. congruence.
  - destruct V as (a & rest & u & _ & (O & _) & _). destruct (H _ O).
Qed.
Lemma says_one {T} (conv : text -> option T) i v v' : says conv i v -> says conv i v' -> v = v'.
Proof. destruct i as [n l| |]; try contradiction. intros (t & V & C) (t' & V' & C'). rewrite (value_one _ _ _ _ V V') in C. congruence. Qed.
Lemma rows_one {T} (R : nat -> text -> list T -> Prop) i rows rows' : (forall n t vs vs', R n t vs -> R n t vs' -> vs = vs') -> gives_rows R i rows -> gives_rows R i rows' -> rows = rows'.
Proof.
  intros H. destruct i as [n l|n a ls b|l]; [..|contradiction].
  - intros (t & vs & V & G & ->) (t' & vs' & V' & G' & ->). rewrite (value_one _ _ _ _ V V') in G. rewrite (H _ _ _ _ G G'). reflexivity.
  - intros (_ & G) (_ & G'). clear - H G G'. revert rows' G'. induction G as [|t vs ls rows X G IH]; intros rows' G'; inversion G' as [|? vs' ? rows'' X' G'']; subst; [reflexivity|].
    rewrite (H _ _ _ _ X X'), (IH _ G''). reflexivity.
Qed.
Lemma filled_one to_double n t vs vs' : filled_row to_double n t vs -> filled_row to_double n t vs' -> vs = vs'.
Proof. intros A B. apply filled_read in A, B. destruct A, B. congruence. Qed.
Lemma full_one {T} (conv : text -> option T) n t vs vs' : full_row conv n t vs -> full_row conv n t vs' -> vs = vs'.
Proof. intros A B. apply full_read in A, B. destruct A, B. congruence. Qed.
Definition name_of (i : item) : option pname := match i with Value n _ | Table n _ _ _ => Some n | Plain _ => None end.
Lemma named_name n i : is_named n i = true <-> name_of i = Some n.
Proof. rewrite is_named_iff. destruct i; cbn; split; congruence || tauto. Qed.
Lemma rows_shape {T} (R : nat -> text -> list T -> Prop) n i rows : (forall t vs, R (width n) t vs -> length vs = width n) -> name_of i = Some n -> gives_rows R i rows ->
  rows <> [] /\ Forall (fun r => length r = width n) rows.
Proof.
  intros H N G. destruct i as [m l|m a ls b|l]; cbn in N; [injection N as ->..|discriminate].
  - destruct G as (t & vs & _ & G & ->). split; [discriminate|]. constructor; [exact (H _ _ G)|constructor].
  - destruct G as (NE & G). split; [intros ->; inversion G; subst; contradiction|]. clear NE. induction G as [|t vs ls rows X G IH]; constructor; eauto.
Qed.
(* two parameters with the same rows *)
Lemma holds_same {T} n (p q : para T) rows : holds p rows -> holds q rows -> Forall (fun r => length r = n) rows ->
  pr_nrow p = pr_nrow q /\ forall i j, i < n -> j < pr_nrow p -> get_value p i j = get_value q i j.
Proof.
  intros (LP & HP) (LQ & HQ) F. split; [congruence|]. intros i j I J. rewrite LP in J.
  destruct (nth_error rows j) as [r|] eqn:E; [|apply nth_error_None in E; lia]. rewrite Forall_forall in F. assert (L := F r (nth_error_In _ _ E)).
  destruct (nth_error r i) as [v|] eqn:E'; [|apply nth_error_None in E'; lia]. rewrite (HP i j r v E E'), (HQ i j r v E E'). reflexivity.
Qed.

Section Build.
Variable to_double : text -> option Q.
Variable files : text -> option text.

Lemma defines_kind i d : defines to_double files i d -> exists e, name_of i = Some (Bdry e (kind_of d)).
Proof. intros ((e & N) & _). exists e. apply named_name, N. Qed.
Lemma kinds_same i d d' : defines to_double files i d -> defines to_double files i d' -> kind_of d = kind_of d'.
Proof. intros A B. apply defines_kind in A, B. destruct A as (e & A), B as (e' & B). rewrite A in B. injection B as _ ->. reflexivity. Qed.
Lemma numbers_same e k i rows rows' (p q : para Q) : name_of i = Some (Bdry e k) ->
  gives_rows (filled_row to_double) i rows -> holds p rows -> gives_rows (filled_row to_double) i rows' -> holds q rows' ->
  pr_nrow p = pr_nrow q /\ 0 < pr_nrow p /\ forall i j, i < width (Bdry e k) -> j < pr_nrow p -> get_value p i j = get_value q i j.
Proof.
  intros N G H G' H'. rewrite (rows_one _ i rows' rows (filled_one to_double) G' G) in H'.
  destruct (rows_shape _ _ i rows (fun t vs X => proj2 (filled_read to_double _ t vs X)) N G) as [NE F].
  destruct (holds_same _ p q rows H H' F) as [A B]. split; [exact A|]. split; [|exact B]. destruct H as (-> & _). destruct rows; [contradiction|cbn; lia].
Qed.
Lemma row_same (p q : para Q) n j vs : (forall i j, i < n -> j < pr_nrow p -> get_value p i j = get_value q i j) -> j < pr_nrow p -> length vs <= n -> row_is p j vs -> row_is q j vs.
Proof. intros H J L R i v E. rewrite <- H; [exact (R i v E)| |exact J]. assert (X : i < length vs) by (apply nth_error_Some; rewrite E; discriminate). lia. Qed.
Lemma integers_same e i rows rows' (p q : para Z) : name_of i = Some (Bdry e KEdges) ->
  gives_rows (full_row to_integer) i rows -> holds p rows -> gives_rows (full_row to_integer) i rows' -> holds q rows' ->
  pr_nrow p = pr_nrow q /\ forall i j, i < 3 -> j < pr_nrow p -> get_value p i j = get_value q i j.
Proof.
  intros N G H G' H'. rewrite (rows_one _ i rows' rows (full_one to_integer) G' G) in H'.
  destruct (rows_shape _ _ i rows (fun t vs X => proj2 (full_read to_integer _ t vs X)) N G) as [NE F].
  assert (W : width (Bdry e KEdges) = 3) by (destruct e; reflexivity). rewrite W in F. exact (holds_same _ p q rows H H' F).
Qed.
Lemma describes_same cosn sinn sqrt3 stod i d d' cs : defines to_double files i d -> defines to_double files i d' ->
  describes cosn sinn sqrt3 stod d cs -> describes cosn sinn sqrt3 stod d' cs.
Proof.
  intros A B G. assert (K := kinds_same _ _ _ A B). destruct (defines_kind _ _ A) as (e & N). destruct A as (_ & A), B as (_ & B).
  destruct G as [p cs LC H|p c m x y w h s r R I|p c m x y rad k n s r R I1 I2 I3|p c m x y w s r R I|p c m x y a s r R I|file xs ps ms cs R P1 P2 P3];
    destruct d'; try discriminate; cbn [kind_of] in N.
  - destruct A as (rows & A1 & A2), B as (rows' & B1 & B2). destruct (numbers_same _ _ _ _ _ _ _ N A1 A2 B1 B2) as (S1 & S2 & S3). constructor; [congruence|].
    intros j x y s r m E. destruct (H j x y s r m E) as (c & X & Y). exists c. split; [|exact Y]. assert (J : j < length cs) by (apply nth_error_Some; rewrite E; discriminate).
    apply (row_same p p0 5); [destruct e; exact S3|lia|cbn; lia|exact X].
  - destruct A as (rows & A1 & A2), B as (rows' & B1 & B2). destruct (numbers_same _ _ _ _ _ _ _ N A1 A2 B1 B2) as (S1 & S2 & S3). apply (ds_rect _ _ _ _ p0 c); [|exact I].
    apply (row_same p p0 7); [destruct e; exact S3|exact S2|cbn; lia|exact R].
  - destruct A as (rows & A1 & A2), B as (rows' & B1 & B2). destruct (numbers_same _ _ _ _ _ _ _ N A1 A2 B1 B2) as (S1 & S2 & S3). apply (ds_circ _ _ _ _ p0 c m x y rad k); [|assumption..].
    apply (row_same p p0 7); [destruct e; exact S3|exact S2|cbn; lia|exact R].
  - destruct A as (rows & A1 & A2), B as (rows' & B1 & B2). destruct (numbers_same _ _ _ _ _ _ _ N A1 A2 B1 B2) as (S1 & S2 & S3). apply (ds_square _ _ _ _ p0 c); [|exact I].
    apply (row_same p p0 6); [destruct e; exact S3|exact S2|cbn; lia|exact R].
  - destruct A as (rows & A1 & A2), B as (rows' & B1 & B2). destruct (numbers_same _ _ _ _ _ _ _ N A1 A2 B1 B2) as (S1 & S2 & S3). apply (ds_triangle _ _ _ _ p0 c); [|exact I].
    apply (row_same p p0 6); [destruct e; exact S3|exact S2|cbn; lia|exact R].
  - destruct A as (w & A1 & A2), B as (w' & B1 & B2). rewrite (says_one _ _ _ _ A1 B1) in A2. rewrite <- A2 in B2. subst file0. econstructor; eassumption.
Qed.
Lemma gives_same cosn sinn sqrt3 stod store bt i d d' cs : defines to_double files i d -> defines to_double files i d' ->
  gives cosn sinn sqrt3 stod store bt d cs -> gives cosn sinn sqrt3 stod store bt d' cs.
Proof.
  intros A B G. destruct G as [d cs D|p vs cs L1 L2 H1 H2 H3]; [constructor; exact (describes_same _ _ _ _ i d d' cs A B D)|].
  assert (K := kinds_same _ _ _ A B). destruct (defines_kind _ _ A) as (e & N). destruct d'; try discriminate. destruct A as (_ & rows & A1 & A2), B as (_ & rows' & B1 & B2).
  destruct (integers_same e i rows rows' _ _ N A1 A2 B1 B2) as (S1 & S2). apply (gv_edges _ _ _ _ _ _ p0 vs); [congruence|exact L2| |exact H2|exact H3].
  intros j v w c E1 E2. destruct (H1 j v w c E1 E2) as (X1 & X2 & X3). assert (J : j < pr_nrow p) by (rewrite L1, <- L2; apply nth_error_Some; rewrite E2; discriminate).
  rewrite <- !S2 by lia. auto.
Qed.

(* ---- the order of the boundaries ---- *)
Lemma accepted_all l : accepted (map (fun d => GV d true) l) = l.
Proof. induction l as [|d l IH]; [reflexivity|]. cbn. rewrite IH. reflexivity. Qed.
Lemma of_kind_all k l : accepted (of_kind k (map (fun d => GV d true) l)) = filter (fun d => kind_eqb (kind_of d) k) l.
Proof.
  induction l as [|d l IH]; [reflexivity|]. unfold of_kind in *. cbn [map filter gv_def]. destruct (kind_eqb (kind_of d) k); [|exact IH]. cbn [accepted]. rewrite IH. reflexivity.
Qed.
Lemma kind_same a b : kind_eqb a b = true <-> a = b.
Proof. split; [destruct a, b; cbn; congruence|intros ->; destruct b; reflexivity]. Qed.
Lemma filter_none {A} (f : A -> bool) l : (forall x, In x l -> f x = false) -> filter f l = [].
Proof. induction l as [|x l IH]; intros H; [reflexivity|]. cbn. rewrite (H x (or_introl eq_refl)). apply IH. intros y Y. apply H. right. exact Y. Qed.
Lemma filter_every {A} (f : A -> bool) l : (forall x, In x l -> f x = true) -> filter f l = l.
Proof. induction l as [|x l IH]; intros H; [reflexivity|]. cbn. rewrite (H x (or_introl eq_refl)). f_equal. apply IH. intros y Y. apply H. right. exact Y. Qed.
Lemma kinds_sorted is : forall ks l, NoDup ks -> Forall2 (defines to_double files) (flat_map (fun k => named (Bdry false k) is) ks) l ->
  flat_map (fun k => filter (fun d => kind_eqb (kind_of d) k) l) ks = l /\ forall d, In d l -> In (kind_of d) ks.
Proof.
  induction ks as [|k ks IH]; intros l ND F; [inversion F; subst; split; [reflexivity|intros d []]|]. apply NoDup_cons_iff in ND. destruct ND as [N1 N2].
  cbn [flat_map] in F. apply Forall2_app_inv_l in F. destruct F as (a & b & FA & FB & ->). destruct (IH b N2 FB) as [E K].
  assert (KA : forall d, In d a -> kind_of d = k).
  { assert (X : forall i, In i (named (Bdry false k) is) -> name_of i = Some (Bdry false k)) by (intros i I; apply filter_In in I; apply named_name, I).
    clear - FA X. induction FA as [|i d l a D FA IHF]; intros d' [].
    - subst d'. apply defines_kind in D. destruct D as (e & D). rewrite (X i (or_introl eq_refl)) in D. injection D as _ <-. reflexivity.
    - apply IHF; [intros j J; apply X; right; exact J|assumption]. }
  split.
  - cbn [flat_map]. rewrite filter_app, (filter_every _ a), (filter_none _ b), app_nil_r; [|intros d D; destruct (kind_eqb (kind_of d) k) eqn:Z; [|reflexivity]; apply kind_same in Z; exfalso; apply N1; rewrite <- Z; apply K, D|intros d D; apply kind_same, KA, D].
    f_equal. etransitivity; [|exact E]. clear - KA N1. induction ks as [|k' ks IH]; [reflexivity|]. cbn [flat_map]. rewrite filter_app, (filter_none _ a).
    + cbn [app]. f_equal. apply IH. intros I. apply N1. right. exact I.
    + intros d D. destruct (kind_eqb (kind_of d) k') eqn:Z; [|reflexivity]. apply kind_same in Z. exfalso. apply N1. left. rewrite <- Z. apply KA, D.
  - intros d D. apply in_app_iff in D. destruct D as [D|D]; [left; symmetry; apply KA, D|right; apply K, D].
Qed.
Lemma interior_order is l : Forall2 (defines to_double files) (boundaries false is) l -> interior_definitions (map (fun d => GV d true) l) = l.
Proof.
  intros F. unfold interior_definitions. rewrite (flat_map_ext _ (fun k => filter (fun d => kind_eqb (kind_of d) k) l)) by (intros k; apply of_kind_all).
  exact (proj1 (kinds_sorted is kinds l kinds_once F)).
Qed.
Lemma exterior_one d : chosen kinds [GV d true] = Some d.
Proof. destruct d; reflexivity. Qed.

(* ---- the vertices ---- *)
Lemma vertices_read (fixed : bool) (p : para Q) rows vs : holds p rows -> Forall2 (vertex_row (if fixed then 4%N else 0%N)) rows vs ->
  exists l, read_vertices fixed p (pr_nrow p) 0 = Ok l /\ map (fun v => VI (iv_xy v) (vx (iv_props v)) (vy (iv_props v)) (if iv_fixed v then 4%N else 0%N)) l = vs.
Proof.
  intros (-> & H) F. assert (X : forall rows' vs' j, (forall i j' r v, nth_error rows' j' = Some r -> nth_error r i = Some v -> get_value p i (j + j') = Some v) -> Forall2 (vertex_row (if fixed then 4%N else 0%N)) rows' vs' ->
    exists l, read_vertices fixed p (length rows') j = Ok l /\ map (fun v => VI (iv_xy v) (vx (iv_props v)) (vy (iv_props v)) (if iv_fixed v then 4%N else 0%N)) l = vs').
  { clear. intros rows vs j H F. revert j H. induction F as [|row v rows vs (x & y & s & r & -> & ->) F IH]; intros j H; [exists []; auto|]. cbn [length read_vertices]. unfold entry.
    assert (H0 : forall i u, nth_error [x; y; s; r] i = Some u -> get_value p i j = Some u) by (intros i u E; rewrite <- (H i 0 [x; y; s; r] u eq_refl E); f_equal; lia).
    rewrite (H0 0 x eq_refl), (H0 1 y eq_refl), (H0 2 s eq_refl), (H0 3 r eq_refl). cbn [obind].
    destruct (IH (S j)) as (l & E & M). { intros i j' r' v' E1 E2. rewrite <- (H i (S j') r' v' E1 E2). f_equal. lia. }
    rewrite E. cbn [obind]. eexists. split; [reflexivity|]. cbn [map iv_xy iv_props iv_fixed vx vy]. rewrite M. reflexivity. }
  apply X; [|exact F]. intros i j r v E1 E2. exact (H i j r v E1 E2).
Qed.
Lemma store_read tq is x store : means to_double files is x -> stands to_double is store -> file_store tq x = Ok store.
Proof.
  intros M (rows & vs & rows' & vs' & R1 & V1 & R2 & V2 & ->). destruct M as [_ _ _ M1 M2 _ _ _ _ _ _ _ _ _].
  assert (A : exists l e, match in_vertices x with Some p => obind (read_vertices false p (pr_nrow p) 0) (fun vs => Ok (vs, estimate vs)) | None => Ok ([], tq) end = Ok (l, e) /\
      map (fun v => VI (iv_xy v) (vx (iv_props v)) (vy (iv_props v)) (if iv_fixed v then 4%N else 0%N)) l = vs).
  { unfold first_rows in M1. unfold rows_of in R1. destruct (named Vertices is) as [|i more].
    - rewrite M1. subst rows. inversion V1; subst. exists [], tq. auto.
    - destruct M1 as (q & rws & -> & G & H). rewrite (rows_one _ i rws rows (filled_one to_double) G R1) in H. destruct (vertices_read false q rows vs H V1) as (l & E & MM).
      rewrite E. cbn [obind]. exists l, (estimate l). auto. }
  assert (B : exists l, match in_fixed x with Some p => read_vertices true p (pr_nrow p) 0 | None => Ok [] end = Ok l /\
      map (fun v => VI (iv_xy v) (vx (iv_props v)) (vy (iv_props v)) (if iv_fixed v then 4%N else 0%N)) l = vs').
  { unfold first_rows in M2. unfold rows_of in R2. destruct (named FixedVertices is) as [|i more].
    - rewrite M2. subst rows'. inversion V2; subst. exists []. auto.
    - destruct M2 as (q & rws & -> & G & H). rewrite (rows_one _ i rws rows' (filled_one to_double) G R2) in H. destruct (vertices_read true q rows' vs' H V2) as (l & E & MM).
      rewrite E. exists l. auto. }
  destruct A as (l & e & A & <-), B as (l' & B & <-). unfold file_store, init_vertices. rewrite A. cbn [obind]. rewrite B. cbn [obind fst snd]. rewrite map_app. reflexivity.
Qed.
(* what the theorems about the domain ask for *)
Lemma domain_asks is x i0 more cosn sinn sqrt3 stod store c0 css : means to_double files is x -> boundaries true is = i0 :: more ->
  draws to_double files cosn sinn sqrt3 stod store EXTERIOR i0 c0 -> Forall2 (draws to_double files cosn sinn sqrt3 stod store INTERIOR) (boundaries false is) css ->
  exists d0, in_exterior x = Some d0 /\ gives cosn sinn sqrt3 stod store EXTERIOR d0 c0 /\
    Forall2 (gives cosn sinn sqrt3 stod store INTERIOR) (interior_definitions (map (fun d => GV d true) (in_interior x))) css.
Proof.
  intros M B (d & D & G) F. destruct M as [_ _ _ _ _ M1 M2 _ _ _ _ _ _ _]. rewrite B in M1. destruct M1 as (d0 & E & D0). exists d0. split; [exact E|].
  split; [exact (gives_same _ _ _ _ _ _ i0 d d0 c0 D D0 G)|]. rewrite (interior_order is _ M2). clear - M2 F. revert css F.
  induction M2 as [|i d is' l D M IH]; intros css F; inversion F as [|? c ? css' (d' & D' & G) F']; subst; constructor.
  - exact (gives_same _ _ _ _ _ _ i d' d c D' D G).
  - apply IH, F'.
Qed.
End Build.
