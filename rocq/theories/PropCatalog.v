(** C88: the catalogue of data sets. *)
From Coq Require Import List Arith Lia Bool String Ascii.
Import ListNotations.
From Verif Require Import Base Num Tensor Leaf Einet Build RefEinet Spec Generate Catalog.
Local Open Scope string_scope.

(** * Lookups *)
Lemma lookup_in {A} (d : list (string * A)) key a : lookup d key = Some a -> In (key, a) d.
Proof. induction d as [|(k, b) d IH]; cbn; [discriminate|]. destruct (String.eqb_spec key k) as [->|]; [intros [= ->]; auto|auto]. Qed.
Lemma member_in l key : member l key = true <-> In key l.
Proof.
  unfold member. rewrite existsb_exists. split; [intros (x & Hx & E); apply String.eqb_eq in E; subst; auto|].
  intros H. exists key. split; auto. apply String.eqb_refl.
Qed.
(** A name of the tables *)
Ltac names H := cbn [In] in H; repeat (destruct H as [H|H]; [subst|]); try contradiction H.
Lemma debd_lookup key : member DEBD key = true -> exists n, lookup DEBD_shapes key = Some n /\ 0 < n /\ contains "celeba" key = false /\ contains "svhn" key = false /\
  contains "synth" key = false /\ lookup shapes key = None.
Proof. intros H. apply member_in in H. unfold DEBD in H. names H; eexists; (split; [reflexivity|]); (split; [lia|]); repeat split. Qed.
(** Where a shape comes from *)
Lemma shape_cases name s : get_data_shape name = Ok s ->
  contains "synth" name = true /\ s = mkShape 2 1 1 \/
  contains "synth" name = false /\ member DEBD name = true /\ (exists n, 0 < n /\ s = mkShape 1 n 1) \/
  contains "synth" name = false /\ member DEBD name = false /\ In (name, s) shapes.
Proof.
  unfold get_data_shape. destruct (contains "synth" name); [intros [= <-]; auto|]. destruct (member DEBD name) eqn:Hd.
  - destruct (debd_lookup name Hd) as (n & -> & Hn & _). cbn. intros [= <-]. right. left. eauto.
  - destruct (lookup shapes name) eqn:El; cbn [item]; [|discriminate]. intros [= <-]. right. right. split; auto. split; auto. apply lookup_in. auto.
Qed.

(** * C88 *)
(** Shapes are not empty; tables have one column, and images are squares. *)
Theorem C88_shapes : forall name s, get_data_shape name = Ok s ->
  0 < i_C s /\ 0 < i_H s /\ 0 < i_W s /\ (is_1d_data name = true -> i_W s = 1) /\ (is_1d_data name = false -> i_H s = i_W s /\ 1 < i_W s).
Proof.
  intros name s H. apply shape_cases in H as [(H1 & ->)|[(H1 & H2 & n & Hn & ->)|(H1 & H2 & H)]].
  - unfold is_1d_data. rewrite H1, orb_true_r. cbn. repeat split; try lia; discriminate.
  - unfold is_1d_data. rewrite H2. cbn. repeat split; try lia; discriminate.
  - unfold shapes in H. cbn [In] in H. repeat (destruct H as [H|H]; [injection H as <- <-; cbn [i_C i_H i_W]; repeat split; try lia; try reflexivity; discriminate|]). contradiction H.
Qed.
Print Assumptions C88_shapes.

(** Every data set that has a shape can be loaded, but for fmnist-16 and synthetic data with an unknown tag. *)
Theorem C88_load_partial : forall name s, get_data_shape name = Ok s ->
  (exists src, get_datasets name = Ok src) \/
  (name = "fmnist-16" /\ get_datasets name = Err GenericExc) \/
  (contains "synth" name = true /\ get_datasets name = Err ValueErr).
Proof.
  intros name s H. pose proof H as H0. apply shape_cases in H as [(H1 & ->)|[(H1 & H2 & n & Hn & ->)|(H1 & H2 & H)]].
  - unfold get_datasets. rewrite H0, H1. cbn [bind]. unfold generate_labels. repeat match goal with |- context [if ?b then _ else _] => destruct b end; cbn [bind]; eauto.
  - apply member_in in H2. unfold DEBD in H2. left. names H2; eexists; reflexivity.
  - unfold shapes in H. cbn [In] in H. repeat (destruct H as [H|H]; [injection H as <- <-; first [left; eexists; reflexivity | right; left; split; reflexivity]|]). contradiction H.
Qed.
Print Assumptions C88_load_partial.
Theorem C88_load_refuted : exists name s, get_data_shape name = Ok s /\ get_data_num_classes name = Ok 10 /\ is_classification_data name = true /\ get_datasets name = Err GenericExc.
Proof. exists "fmnist-16", (mkShape 1 16 16). repeat split. Qed.
Print Assumptions C88_load_refuted.
(** A name without a shape cannot be loaded. *)
Theorem C88_unknown : forall name e, get_data_shape name = Err e -> e = KeyErr /\ get_datasets name = Err KeyErr /\ get_data_num_classes name = Err KeyErr.
Proof.
  intros name e H. unfold get_datasets. rewrite H. unfold get_data_shape, get_data_num_classes in *. destruct (contains "synth" name); [discriminate|].
  destruct (member DEBD name) eqn:Hd; [destruct (debd_lookup name Hd) as (n & E & _); rewrite E in H; discriminate|].
  destruct (lookup shapes name) eqn:El; [discriminate|]. injection H as <-. split; auto. split; auto.
  destruct (lookup class_numbers name) eqn:Ec; auto. exfalso. apply lookup_in in Ec. unfold class_numbers in Ec. cbn [In] in Ec.
  repeat (destruct Ec as [Ec|Ec]; [injection Ec as <- <-; discriminate El|]). contradiction Ec.
Qed.
Print Assumptions C88_unknown.

(** ** Class numbers *)
(** Characters of a string *)
Fixpoint chars (s : string) : list ascii := match s with EmptyString => [] | String c s' => c :: chars s' end.
Lemma prefix_chars pat : forall s, String.prefix pat s = true -> firstn (String.length pat) (chars s) = chars pat.
Proof.
  induction pat as [|a pat IH]; intros s H; [reflexivity|]. destruct s as [|b s]; cbn in H; [discriminate|]. destruct (ascii_dec a b) as [->|]; [|discriminate].
  cbn [String.length chars firstn]. f_equal. auto.
Qed.
Lemma erase_keeps a pat c s : ~ In c (chars (String a pat)) -> forall skip, ~ In c (firstn skip (chars s)) -> In c (chars s) -> In c (chars (erase (String a pat) s skip)).
Proof.
  intros Hp. induction s as [|b s IH]; intros skip Hs Hc; [destruct Hc|]. cbn [erase]. destruct skip as [|k].
  - destruct (String.prefix (String a pat) (String b s)) eqn:Ep.
    + apply prefix_chars in Ep. cbn [String.length chars firstn] in Ep. injection Ep as <- Ep. cbn [String.length]. replace (S (String.length pat) - 1) with (String.length pat) by lia.
      apply IH; [rewrite Ep; intros X; apply Hp; right; auto|]. cbn [chars] in Hc. destruct Hc as [->|Hc]; auto. exfalso. apply Hp. left. auto.
    + cbn [chars] in *. destruct Hc as [->|Hc]; [left; auto|right]. apply IH; auto.
  - cbn [chars firstn] in *. destruct Hc as [->|Hc]; [exfalso; apply Hs; left; auto|]. apply IH; auto. intros X. apply Hs. right. auto.
Qed.
Lemma substring_chars s : forall n m c, In c (chars (String.substring n m s)) -> In c (chars s).
Proof.
  induction s as [|b s IH]; intros n m c H; [destruct n, m; destruct H|]. destruct n as [|n]; [destruct m as [|m]; cbn in H; [destruct H|]|cbn in H; right; eauto].
  destruct H as [->|H]; [left; auto|right; eauto].
Qed.
Lemma contains_chars sub s c : contains sub s = true -> In c (chars sub) -> In c (chars s).
Proof.
  unfold contains. destruct (String.index 0 sub s) as [m|] eqn:E; [|discriminate]. intros _ H. apply String.index_correct1 in E. rewrite <- E in H. eapply substring_chars; eauto.
Qed.
(** Synthetic data that is generated has no other name inside. *)
Lemma synth_plain name k : generate_labels name = Ok k -> contains "celeba" name = false /\ member DEBD name = false.
Proof.
  intros H. split.
  - destruct (contains "celeba" name) eqn:E; auto. exfalso. apply contains_chars with (c := "b"%char) in E; [|cbn; tauto].
    assert (B: In "b"%char (chars (erase "synth-" name 0))).
    { apply erase_keeps; auto. cbn. intros X. repeat (destruct X as [X|X]; [discriminate X|]). destruct X. }
    unfold generate_labels in H. cbv zeta in H. revert H B. generalize (erase "synth-" name 0). intros tag H B.
    repeat match type of H with (if (?t =? ?n)%string then _ else _) = _ => destruct (String.eqb_spec t n) as [Et|?]; 
      [rewrite Et in B; cbn in B; repeat (destruct B as [B|B]; [discriminate B|]); destruct B|] end. discriminate H.
  - destruct (member DEBD name) eqn:E; auto. exfalso. apply member_in in E. unfold DEBD in E. names E; vm_compute in H; discriminate H.
Qed.
(** Data sets that can be loaded have a class number, but for digits; data sets without labels have none. *)
Theorem C88_classes_partial : forall name src, get_datasets name = Ok src -> name <> "digits" ->
  exists K, get_data_num_classes name = Ok K /\
    (is_classification_data name = false -> K = 0) /\
    (is_classification_data name = true -> 1 < K \/ (K = 0 /\ (name = "lsun" \/ name = "lfw"))).
Proof.
  intros name src H Hd. assert (S: exists s, get_data_shape name = Ok s) by (unfold get_datasets in H; destruct (get_data_shape name); [eauto|discriminate]).
  destruct S as (s & Hs). pose proof Hs as H0. apply shape_cases in Hs as [(H1 & ->)|[(H1 & H2 & n & Hn & ->)|(H1 & H2 & Hs)]].
  - exists 2. unfold get_data_num_classes. rewrite H1. split; auto. unfold get_datasets in H. rewrite H0, H1 in H. cbn [bind] in H.
    destruct (generate_labels name) as [k|] eqn:Ek; [|discriminate]. destruct (synth_plain name k Ek) as (E1 & E2). unfold is_classification_data. rewrite E1, E2. cbn. split; [discriminate|lia].
  - exists 0. unfold get_data_num_classes, is_classification_data. rewrite H1, H2. cbn. repeat split. discriminate.
  - unfold shapes in Hs. cbn [In] in Hs.
    repeat (destruct Hs as [Hs|Hs]; [injection Hs as <- <-; try (exfalso; apply Hd; reflexivity); eexists; (split; [reflexivity|]); (split; [intros X; first [discriminate X | reflexivity]|]);
      intros X; first [discriminate X | left; lia | right; split; [reflexivity|]; first [left; reflexivity | right; reflexivity]]|]).
    contradiction Hs.
Qed.
Print Assumptions C88_classes_partial.
Theorem C88_classes_refuted :
  (exists src, get_datasets "digits" = Ok src) /\ get_data_num_classes "digits" = Err KeyErr /\
  (exists src, get_datasets "lsun" = Ok src) /\ is_classification_data "lsun" = true /\ get_data_num_classes "lsun" = Ok 0.
Proof. repeat split; eexists; reflexivity. Qed.
Print Assumptions C88_classes_refuted.

(** ** Synthetic data *)
(** The labels fit the class number for two clusters, moons and circles only. *)
Theorem C88_labels_partial : forall name k, get_datasets name = Ok (Synth k) ->
  exists K, get_data_num_classes name = Ok K /\ (k <= K <-> In (erase "synth-" name 0) ["2-clusters"; "2-moons"; "circles"]).
Proof.
  intros name k H. unfold get_datasets in H. destruct (get_data_shape name) as [s|]; [|discriminate]. cbn [bind] in H.
  assert (E: contains "synth" name = true /\ generate_labels name = Ok k).
  { destruct (contains "synth" name); [destruct (generate_labels name); [injection H as <-; auto|discriminate]|].
    repeat match type of H with (if ?b then _ else _) = _ => destruct b end; discriminate H. }
  destruct E as (E1 & E2). exists 2. split; [unfold get_data_num_classes; rewrite E1; reflexivity|].
  unfold generate_labels in E2. cbv zeta in E2. revert E2. generalize (erase "synth-" name 0). intros tag E2.
  repeat match type of E2 with (if (?t =? ?n)%string then _ else _) = _ => destruct (String.eqb_spec t n) as [Et|?]; [rewrite Et; injection E2 as <-; split; [intros X; cbn; first [tauto | lia]|intros X; first [lia | cbn in X; repeat (destruct X as [X|X]; [discriminate X|]); destruct X]]|] end.
  discriminate E2.
Qed.
Print Assumptions C88_labels_partial.
Theorem C88_labels_refuted : get_datasets "synth-9-clusters" = Ok (Synth 9) /\ get_data_num_classes "synth-9-clusters" = Ok 2.
Proof. split; reflexivity. Qed.
Print Assumptions C88_labels_refuted.

(** ** Items and networks *)
(** The items of a data set that is not synthetic have the entries that main.py builds the network for, one channel after the other. *)
Theorem C88_items : forall name src, get_datasets name = Ok src -> contains "synth" name = false ->
  exists C H W, item_shape name = Ok [C; H; W] /\ get_data_shape name = Ok (mkShape C H W) /\ main_sizes name = Ok (C, H * W) /\ 0 < C /\ 0 < H * W.
Proof.
  intros name src H Hn. assert (S: exists s, get_data_shape name = Ok s) by (unfold get_datasets in H; destruct (get_data_shape name); [eauto|discriminate]).
  destruct S as (s & Hs). pose proof Hs as H0. destruct (C88_shapes name s Hs) as (P1 & P2 & P3 & _).
  exists (i_C s), (i_H s), (i_W s). unfold item_shape, main_sizes. rewrite H, H0. cbn [bind]. split; [|repeat split; auto; [destruct s; reflexivity|apply Nat.mul_pos_pos; auto]].
  apply shape_cases in Hs as [(H1 & ->)|[(H1 & H2 & n & _ & ->)|(H1 & H2 & Hs)]]; [congruence| |].
  - apply member_in in H2. unfold DEBD in H2. clear H0 Hn. names H2; injection H as <-; reflexivity.
  - clear H0 Hn. unfold shapes in Hs. cbn [In] in Hs. repeat (destruct Hs as [Hs|Hs]; [injection Hs as <- <-; first [discriminate H | injection H as <-; reflexivity]|]). contradiction Hs.
Qed.
Print Assumptions C88_items.
(** Batches of such items have the shape that forward accepts. *)
Theorem C88_batch : forall V name src g o (E : einet V) N (x : tensor (option V)) C H W, get_datasets name = Ok src -> contains "synth" name = false ->
  item_shape name = Ok [C; H; W] -> accepted g o E -> main_sizes name = Ok (e_C E, e_F E) -> 0 < N -> shape x = [N; C; H; W] ->
  (forall n c f v, n < N -> c < e_C E -> f < e_F E -> entry x n c f = Some v -> lf_supp (leafE E) v = true) -> batch E N x.
Proof.
  intros V name src g o E N x C H W HD HN HI A HS HP Hx Hv. destruct (C88_items name src HD HN) as (C' & H' & W' & E1 & _ & E3 & _).
  rewrite HI in E1. injection E1 as -> -> ->. rewrite HS in E3. injection E3 as EC EF. split; auto. right. right. exists H', W'. rewrite Hx, EC, EF. auto.
Qed.
Print Assumptions C88_batch.
(** Items of the synthetic data are vectors of two numbers, for which main.py builds a network of two channels and one feature; such a network rejects
    every batch of them. *)
Theorem C88_synth_refuted : forall V name k g o (E : einet V) N (x : tensor (option V)) ms, get_datasets name = Ok (Synth k) -> accepted g o E ->
  item_shape name = Ok [2] /\ main_sizes name = Ok (2, 1) /\
  (main_sizes name = Ok (e_C E, e_F E) -> shape x = [N; 2]%nat -> forward E x ms = Err AssertionError).
Proof.
  intros V name k g o E N x ms H A.
  assert (S: get_data_shape name = Ok (mkShape 2 1 1)).
  { unfold get_datasets in H. destruct (get_data_shape name) as [s|] eqn:Es; [|discriminate]. cbn [bind] in H. unfold get_data_shape in Es.
    destruct (contains "synth" name); [congruence|]. repeat match type of H with (if ?b then _ else _) = _ => destruct b end; discriminate H. }
  split; [unfold item_shape; rewrite S, H; reflexivity|]. assert (M: main_sizes name = Ok (2, 1)) by (unfold main_sizes; rewrite S; reflexivity). split; auto.
  intros HM Hx. rewrite M in HM. injection HM as EC EF. unfold forward, forward_full, prepare, dim. rewrite Hx. cbn. unfold size, unsqueeze, dim. cbn. rewrite Hx. cbn. rewrite <- EC. reflexivity.
Qed.
Print Assumptions C88_synth_refuted.

(** ** Classes *)
(** main.py has ten classes whatever the data set: right for the following ones only. *)
Theorem C88_main_classes : forall name src, get_datasets name = Ok src ->
  (get_data_num_classes name = Ok (main_classes true) <->
   In name ["mnist-16"; "mnist-32"; "mnist-bin"; "mnist"; "fmnist"; "fmnist-32"; "cifar"; "svhn"; "svhn-extra"; "fake"]).
Proof.
  intros name src H. assert (S: exists s, get_data_shape name = Ok s) by (unfold get_datasets in H; destruct (get_data_shape name); [eauto|discriminate]).
  destruct S as (s & Hs). split; [|intros X; names X; reflexivity].
  apply shape_cases in Hs as [(H1 & ->)|[(H1 & H2 & n & Hn & ->)|(H1 & H2 & Hs)]].
  - unfold get_data_num_classes. rewrite H1. discriminate.
  - unfold get_data_num_classes. rewrite H1, H2. discriminate.
  - unfold shapes in Hs. cbn [In] in Hs. repeat (destruct Hs as [Hs|Hs]; [injection Hs as <- <-; intros X; first [cbn; tauto | discriminate X | discriminate H]|]). contradiction Hs.
Qed.
Print Assumptions C88_main_classes.
Theorem C88_main_classes_refuted : exists name src K, get_datasets name = Ok src /\ is_classification_data name = true /\
  get_data_num_classes name = Ok K /\ main_classes true < K.
Proof. exists "flowers", (Images 3), 102. cbn. repeat split. lia. Qed.
Print Assumptions C88_main_classes_refuted.
Example C88_ex : get_datasets "celeba-tiny" = Ok (Images 3) /\ item_shape "celeba-tiny" = Ok [3; 32; 32] /\ main_sizes "celeba-tiny" = Ok (3, 1024) /\
  get_datasets "wine" = Ok Table /\ get_data_num_classes "wine" = Ok 3 /\ get_datasets "synth-2-moons" = Ok (Synth 2).
Proof. vm_compute. repeat split. Qed.
