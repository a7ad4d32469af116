(** Proofs about the mixture of networks. *)
From Coq Require Import List Arith Lia Bool Reals Lra Permutation.
Import ListNotations.
From Verif Require Import Base RSum Num Tensor Prob Layers Circuit Net RefFwd Leaf Perm RefLeaf TypeChecks Einet RefNet RefEinet RefEinetS RefMpe Build RefBuild Spec RefSpec RefPack Mixture.

(** * Grouping *)
Definition flat (d : list (nat * list nat)) : list nat := flat_map snd d.
Lemma add_idx_flat c i d : Permutation (flat (add_idx c i d)) (i :: flat d).
Proof.
  induction d as [|[c' l] d IH]; [apply Permutation_refl|]. cbn [add_idx]. destruct (c =? c'); cbn [flat flat_map snd].
  - rewrite <- app_assoc. apply Permutation_sym, Permutation_middle.
  - fold (flat d) (flat (add_idx c i d)). rewrite IH. apply Permutation_sym, Permutation_middle.
Qed.
Lemma add_idx_in c i d c' l : In (c', l) (add_idx c i d) ->
  In (c', l) d \/ (c' = c /\ (l = [i] \/ exists l0, l = l0 ++ [i] /\ In (c', l0) d)).
Proof.
  induction d as [|[c1 l1] d IH]; cbn [add_idx].
  - intros [H|[]]. inversion H; subst. right. auto.
  - destruct (Nat.eqb_spec c c1) as [->|Hc]; intros [H|H].
    + inversion H; subst. right. split; auto. right. exists l1. split; auto. left. auto.
    + left. right. auto.
    + inversion H; subst. left. left. auto.
    + destruct (IH H) as [H'|(H1 & [H2|(l0 & H2 & H3)])]; [left; right; auto| |]; right; split; auto. right. exists l0. split; auto. right. auto.
Qed.
Lemma separate_flat cs i d : Permutation (flat (separate i cs d)) (flat d ++ seq i (length cs)).
Proof.
  revert i d; induction cs as [|c cs IH]; intros i d; cbn [separate length seq]; [rewrite app_nil_r; auto|].
  rewrite IH, add_idx_flat. cbn [app]. apply Permutation_middle.
Qed.
Lemma separate_in cs i d (P : nat -> nat -> Prop) :
  (forall c l, In (c, l) d -> l <> [] /\ forall j, In j l -> P j c) ->
  (forall k c, nth_error cs k = Some c -> P (i + k) c) ->
  forall c l, In (c, l) (separate i cs d) -> l <> [] /\ forall j, In j l -> P j c.
Proof.
  revert i d; induction cs as [|c0 cs IH]; intros i d Hd Hc; cbn [separate]; [auto|]. apply IH.
  - intros c l H. destruct (add_idx_in _ _ _ _ _ H) as [H'|(-> & [->|(l0 & -> & H')])].
    + auto.
    + split; [discriminate|]. intros j [<-|[]]. rewrite <- (Nat.add_0_r i). apply Hc. reflexivity.
    + split; [destruct l0; discriminate|]. intros j Hj. apply in_app_or in Hj as [Hj|[<-|[]]]; [apply (proj2 (Hd _ _ H') j Hj)|].
      rewrite <- (Nat.add_0_r i). apply Hc. reflexivity.
  - intros k c H. replace (S i + k) with (i + S k) by lia. apply Hc. exact H.
Qed.
(** The groups of a list of clusters. *)
Lemma groups_flat cs : Permutation (flat (separate 0 cs [])) (seq 0 (length cs)).
Proof. rewrite separate_flat. reflexivity. Qed.
Lemma groups_in cs c l : In (c, l) (separate 0 cs []) -> l <> [] /\ forall j, In j l -> nth_error cs j = Some c.
Proof. apply (separate_in cs 0 [] (fun j c => nth_error cs j = Some c)); [intros ? ? []|auto]. Qed.

(** * Sorting *)
Inductive sorted : list nat -> Prop :=
| sorted_nil : sorted []
| sorted_cons a l : (forall b, In b l -> a <= b) -> sorted l -> sorted (a :: l).
Lemma sorted_unique l l' : sorted l -> sorted l' -> Permutation l l' -> l = l'.
Proof.
  revert l'; induction l as [|a l IH]; intros l' S S' H.
  - apply Permutation_nil in H. auto.
  - destruct l' as [|b l']; [apply Permutation_sym, Permutation_nil in H; discriminate|].
    inversion S; subst. inversion S'; subst.
    assert (a = b).
    { assert (In a (b :: l')) by (eapply Permutation_in; [exact H|left; auto]).
      assert (In b (a :: l)) by (eapply Permutation_in; [symmetry; exact H|left; auto]).
      apply Nat.le_antisymm; [destruct H1 as [->|]|destruct H0 as [->|]]; auto. }
    subst b. f_equal. apply IH; auto. eapply Permutation_cons_inv; eauto.
Qed.
Lemma sorted_seq i n : sorted (seq i n).
Proof. revert i; induction n; intros i; cbn; constructor; auto. intros b Hb. apply in_seq in Hb. lia. Qed.

Lemma insert_pair_perm a l : Permutation (insert_pair a l) (a :: l).
Proof.
  induction l as [|b l IH]; cbn [insert_pair]; [apply Permutation_refl|]. destruct (pair_leb a b); [apply Permutation_refl|].
  rewrite IH. apply perm_swap.
Qed.
Lemma sort_pairs_perm l : Permutation (sort_pairs l) l.
Proof. induction l as [|a l IH]; cbn [sort_pairs]; auto. rewrite insert_pair_perm, IH. apply Permutation_refl. Qed.
Lemma insert_pair_sorted a l : sorted (map fst l) -> sorted (map fst (insert_pair a l)).
Proof.
  induction l as [|b l IH]; cbn [insert_pair map]; intros S.
  - constructor; [intros ? []|constructor].
  - inversion S; subst. destruct (pair_leb a b) eqn:E.
    + assert (fst a <= fst b).
      { unfold pair_leb in E. apply orb_true_iff in E as [E|E]; [apply Nat.ltb_lt in E; lia|]. apply andb_true_iff in E as [E _]. apply Nat.eqb_eq in E. lia. }
      cbn [map]. constructor; auto. intros c [<-|Hc]; auto. specialize (H1 c Hc). lia.
    + cbn [map]. constructor; auto. intros c Hc.
      assert (fst b <= fst a).
      { unfold pair_leb in E. apply orb_false_iff in E as [E _]. apply Nat.ltb_ge in E. auto. }
      eapply Permutation_in in Hc; [|apply Permutation_map, insert_pair_perm]. destruct Hc as [<-|Hc]; auto.
Qed.
Lemma sort_pairs_sorted l : sorted (map fst (sort_pairs l)).
Proof. induction l as [|a l IH]; cbn [sort_pairs]; [constructor|]. apply insert_pair_sorted, IH. Qed.

Lemma map_fst_combine {A B} (l : list A) (l' : list B) : length l = length l' -> map fst (combine l l') = l.
Proof. revert l'; induction l as [|a l IH]; intros [|b l']; cbn; intros H; try discriminate; auto. f_equal. auto. Qed.
Lemma map_snd_combine {A B} (l : list A) (l' : list B) : length l = length l' -> map snd (combine l l') = l'.
Proof. revert l'; induction l as [|a l IH]; intros [|b l']; cbn; intros H; try discriminate; auto. f_equal. auto. Qed.
Lemma in_combine_nth {A B} (l : list A) (l' : list B) a b da db : length l = length l' -> In (a, b) (combine l l') ->
  exists i, i < length l /\ nth i l da = a /\ nth i l' db = b.
Proof.
  intros E H. destruct (In_nth _ _ (da, db) H) as (i & Hi & Hn). rewrite combine_length, <- E, Nat.min_id in Hi.
  rewrite combine_nth in Hn by auto. inversion Hn; subst. eauto.
Qed.

(** The permutation that puts keys 0 .. N-1 in order. *)
Lemma permutation_of_ok keys N : Permutation keys (seq 0 N) -> 0 < N ->
  exists perm, permutation_of keys = Ok perm /\ length perm = N /\
  forall j, j < N -> nth j perm 0 < N /\ nth (nth j perm 0) keys 0 = j.
Proof.
  intros H HN. assert (HL: length keys = N) by (rewrite (Permutation_length H); apply seq_length).
  assert (EP: permutation_of keys = Ok (map snd (sort_pairs (combine keys (seq 0 (length keys)))))).
  { destruct keys; [cbn in HL; lia|reflexivity]. }
  set (L := combine keys (seq 0 (length keys))) in *. set (S := sort_pairs L) in *. exists (map snd S). split; [exact EP|].
  assert (LL: length L = N) by (unfold L; rewrite combine_length, seq_length; lia).
  assert (LS: length S = N) by (unfold S; rewrite (Permutation_length (sort_pairs_perm L)); auto).
  split; [rewrite map_length; auto|].
  assert (EF: map fst S = seq 0 N).
  { apply sorted_unique; [apply sort_pairs_sorted|apply sorted_seq|].
    rewrite <- H. unfold S. rewrite (Permutation_map fst (sort_pairs_perm L)). unfold L. rewrite map_fst_combine; auto. rewrite seq_length. auto. }
  intros j Hj.
  assert (Hin: In (nth j S (0, 0)) L).
  { eapply Permutation_in; [apply sort_pairs_perm|]. apply nth_In. fold S. lia. }
  assert (Ea: fst (nth j S (0, 0)) = j).
  { change (fst (nth j S (0, 0))) with (fst (nth j S (0, 0))). rewrite <- (map_nth fst). rewrite EF. cbn [fst]. rewrite seq_nth; auto. }
  assert (Eb: nth j (map snd S) 0 = snd (nth j S (0, 0))) by (change 0 with (snd (0, 0)) at 1; apply map_nth).
  rewrite Eb. destruct (nth j S (0, 0)) as [a b]. cbn [fst snd] in *. subst a.
  unfold L in Hin. destruct (in_combine_nth keys (seq 0 (length keys)) j b 0 0 ltac:(rewrite seq_length; auto) Hin) as (i & Hi & H1 & H2).
  rewrite seq_nth in H2 by auto. cbn in H2. subst i. split; [lia|auto].
Qed.

(** * Putting results back in order *)
Lemma stack_ok {A} (l : list (tensor A)) s : l <> [] -> (forall t, In t l -> shape t = s) ->
  exists t, stack l = Ok t /\ shape t = length l :: s /\ forall i idx d, i < length l -> get t (i :: idx) = get (nth i l d) idx.
Proof.
  intros Hl Hs. destruct l as [|t l]; [contradiction|]. unfold stack. assert (Et: shape t = s) by (apply Hs; left; auto).
  assert (Eb: forallb (fun u => eqb_list (shape u) (shape t)) (t :: l) = true).
  { apply forallb_forall. intros u Hu. rewrite Et, (Hs u Hu). apply eqb_list_refl. }
  rewrite Eb. eexists. split; [reflexivity|]. cbn [shape get]. rewrite Et. split; auto. intros i idx d Hi. f_equal. apply nth_indep. auto.
Qed.
Lemma permuted_ok {A} perm (t : tensor A) N s : length perm = N -> shape t = N :: s -> (forall j, j < N -> nth j perm 0 < N) ->
  exists y, permuted perm t = Ok y /\ shape y = N :: s /\ forall j idx, j < N -> get y (j :: idx) = get t (nth j perm 0 :: idx).
Proof.
  intros HL Hs Hp. unfold permuted, index_dim. cbn [shape get].
  assert (Eb: forallb (fun i => nth (nth 0 [i] 0) perm 0 <? size t 0) (seq 0 (length perm)) = true).
  { apply forallb_forall. intros i Hi. apply in_seq in Hi. cbn [nth]. apply Nat.ltb_lt. unfold size. rewrite Hs. cbn [nth]. apply Hp. lia. }
  rewrite Eb. eexists. split; [reflexivity|]. cbn [shape get]. rewrite Hs. cbn [set_nth]. rewrite HL. split; auto. 
Qed.
Lemma reassemble {A} (all : list (nat * tensor A)) N s : Permutation (map fst all) (seq 0 N) -> 0 < N ->
  (forall i r, In (i, r) all -> shape r = s) ->
  exists y, (perm <- permutation_of (map fst all) ;; t <- stack (map snd all) ;; permuted perm t) = Ok y /\
    shape y = N :: s /\ forall n, n < N -> exists r, In (n, r) all /\ forall idx, get y (n :: idx) = get r idx.
Proof.
  intros HP HN Hs. destruct (permutation_of_ok _ N HP HN) as (perm & EP & LP & Hperm). rewrite EP. cbn [bind].
  assert (LA: length all = N) by (rewrite <- (map_length fst), (Permutation_length HP); apply seq_length).
  destruct (stack_ok (map snd all) s) as (t & Et & St & Gt).
  { destruct all; [cbn in LA; lia|discriminate]. }
  { intros t Ht. apply in_map_iff in Ht as ([i r] & <- & Hi). eapply Hs; eauto. }
  rewrite Et. cbn [bind]. rewrite map_length, LA in St, Gt.
  destruct (permuted_ok perm t N s LP St (fun j Hj => proj1 (Hperm j Hj))) as (y & Ey & Sy & Gy).
  exists y. split; auto. split; auto. intros n Hn. destruct (Hperm n Hn) as [H1 H2].
  set (p := nth n perm 0) in *. set (d0 := (0, t)). exists (snd (nth p all d0)). split.
  - assert (Hin: In (nth p all d0) all) by (apply nth_In; lia).
    assert (E1: fst (nth p all d0) = n) by (rewrite <- (map_nth fst); exact H2).
    destruct (nth p all d0) as [a r]. cbn in *. subst a. auto.
  - intros idx. rewrite Gy by auto. fold p. rewrite (Gt p idx t) by auto. f_equal. change t with (snd d0) at 1. apply map_nth.
Qed.

Lemma mapM_forall {A B} (f : A -> res B) (P : A -> B -> Prop) l : (forall a, In a l -> exists b, f a = Ok b /\ P a b) ->
  exists bs, mapM f l = Ok bs /\ Forall2 P l bs.
Proof.
  induction l as [|a l IH]; intros H; cbn [mapM]; [eauto|].
  destruct (H a ltac:(left; auto)) as (b & Eb & Pb). destruct IH as (bs & Ebs & Pbs); [intros; apply H; right; auto|].
  rewrite Eb. cbn [bind]. rewrite Ebs. cbn [bind]. eauto.
Qed.
(** Collecting the results of the groups. *)
Lemma collected {R} (groups : list (nat * list nat)) (parts : list (list (nat * R))) (Q : nat -> nat -> R -> Prop) :
  Forall2 (fun g part => map fst part = snd g /\ forall i r, In (i, r) part -> Q (fst g) i r) groups parts ->
  map fst (concat parts) = flat groups /\
  forall i r, In (i, r) (concat parts) -> exists c idxs, In (c, idxs) groups /\ In i idxs /\ Q c i r.
Proof.
  induction 1 as [|[c idxs] part groups parts [H1 H2] HF [IH1 IH2]]; cbn [concat map flat flat_map snd]; [split; auto; intros ? ? []|].
  cbn [fst snd] in *. split.
  - rewrite map_app, H1. unfold flat in IH1. rewrite IH1. reflexivity.
  - intros i r Hi. apply in_app_or in Hi as [Hi|Hi].
    + exists c, idxs. split; [left; auto|]. split; [|auto]. rewrite <- H1. apply (in_map fst) in Hi. exact Hi.
    + destruct (IH2 i r Hi) as (c' & idxs' & Hg & Hi' & HQ). exists c', idxs'. split; [right; auto|auto].
Qed.

(** * Rows of a batch *)
Lemma wshape_sub s N C F k : wshape s N C F -> 0 < k -> s = N :: tl s /\ wshape (k :: tl s) k C F.
Proof.
  intros [(-> & HC)|[->|(H & W & -> & HF & HN)]] Hk; cbn; (split; [reflexivity|]); unfold wshape; [left; auto|right; left; auto|right; right; eauto].
Qed.
Lemma ix_sub s N C F n c f : wshape s N C F -> exists idx, ix s n c f = n :: idx /\ forall k m, ix (k :: tl s) m c f = m :: idx.
Proof. intros [(-> & HC)|[->|(H & W & -> & HF & HN)]]; cbn [ix tl]; eexists; (split; [reflexivity|]; intros; reflexivity). Qed.

Section Rows.
Context {V : Type}.
Lemma sub_batch (E : einet V) N x idxs t : batch E N x -> idxs <> [] -> (forall j, In j idxs -> j < N) ->
  stack (map (trow x) idxs) = Ok t ->
  shape t = length idxs :: tl (shape x) /\ batch E (length idxs) t /\
  forall i c f, i < length idxs -> entry t i c f = entry x (nth i idxs 0) c f.
Proof.
  intros [HW Hv] Hne Hlt Et. destruct (stack_ok (map (trow x) idxs) (tl (shape x))) as (t' & Et' & St & Gt).
  { destruct idxs; [contradiction|discriminate]. }
  { intros u Hu. apply in_map_iff in Hu as (j & <- & _). reflexivity. }
  assert (t' = t) by congruence. subst t'. rewrite map_length in *. split; auto.
  assert (Hk: 0 < length idxs) by (destruct idxs; [contradiction|cbn; lia]).
  destruct (wshape_sub _ _ _ _ (length idxs) HW Hk) as [Es Hw'].
  assert (EN: forall i c f, i < length idxs -> entry t i c f = entry x (nth i idxs 0) c f).
  { intros i c f Hi. unfold entry. rewrite St. destruct (ix_sub _ _ _ _ (nth i idxs 0) c f HW) as (idx & E1 & E2). rewrite E1, E2.
    rewrite (Gt i idx (trow x 0)) by auto. rewrite map_nth. reflexivity. }
  split; auto. split; [rewrite St; auto|].
  intros n c f v Hn Hc Hf He. rewrite EN in He by auto. eapply Hv; [|exact Hc|exact Hf|exact He]. apply Hlt, nth_In. auto.
Qed.
End Rows.

(** * The forward pass *)
Section Forward.
Context {V : Type}.
Variable g : config.
Variable Es : list (einet V).
Hypothesis HA : forall E, In E Es -> exists o, accepted g o E.

Lemma accepted_K o (E : einet V) : accepted g o E -> e_K E = nval (g_K g).
Proof. intros [H1 H2 H3]. apply (build_inv g o E H1 H2 H3). Qed.
Lemma accepted_CF o (E : einet V) : accepted g o E -> e_C E = nval (g_C g) /\ e_F E = nval (g_F g).
Proof. intros [H1 H2 H3]. destruct (build_inv g o E H1 H2 H3) as (_ & HF & HC & _). auto. Qed.

Lemma component_ok c : c < length Es -> exists E, component Es c = Ok E /\ nth_error Es c = Some E /\ In E Es.
Proof.
  intros H. unfold component. destruct (nth_error Es c) as [E|] eqn:EE; [|apply nth_error_None in EE; lia].
  exists E. split; auto. split; auto. eapply nth_error_In; eauto.
Qed.

Lemma mix_forward_ok (pred : tensor (option V) -> option (list nat) -> list nat) x ms N :
  (forall E, In E Es -> batch E N x) -> 0 < N -> length (pred x ms) = N -> (forall c, In c (pred x ms) -> c < length Es) ->
  exists y, mix_forward Es pred x ms = Ok y /\ shape y = [N; nval (g_K g)] /\
  forall n k, n < N -> k < nval (g_K g) ->
    exists E yE, nth_error Es (nth n (pred x ms) 0) = Some E /\ forward E x None = Ok yE /\ get y [n; k] = get yE [n; k].
Proof.
  intros Hb HN HL Hc. set (cs := pred x ms) in *. unfold mix_forward. fold cs. set (groups := separate 0 cs []).
  set (Q := fun c i (r : tensor num) => shape r = [nval (g_K g)] /\ forall k, k < nval (g_K g) ->
    exists E yE, nth_error Es c = Some E /\ forward E x None = Ok yE /\ get r [k] = get yE [i; k]).
  match goal with |- context [mapM ?f groups] => set (F := f) end.
  destruct (mapM_forall F (fun gr part => map fst part = snd gr /\ forall i r, In (i, r) part -> Q (fst gr) i r) groups) as (parts & Ep & HP).
  { intros [c idxs] Hin. destruct (groups_in _ _ _ Hin) as [Hne Hj].
    assert (Hc': c < length Es /\ forall j, In j idxs -> j < N).
    { split.
      - destruct idxs as [|j idxs]; [contradiction|]. apply Hc. eapply nth_error_In. apply (Hj j). left. auto.
      - intros j Hij. rewrite <- HL. apply nth_error_Some. rewrite (Hj j Hij). discriminate. }
    destruct Hc' as [Hc' Hlt]. destruct (component_ok c Hc') as (E & Ec & En & Ein). destruct (HA E Ein) as (o & A).
    destruct (stack_ok (map (trow x) idxs) (tl (shape x))) as (t & Et & _).
    { destruct idxs; [contradiction|discriminate]. }
    { intros u Hu. apply in_map_iff in Hu as (j & <- & _). reflexivity. }
    destruct (sub_batch E N x idxs t (Hb E Ein) Hne Hlt Et) as (St & Bt & ENt).
    pose proof (accepted_ok g o E A) as HE.
    destruct (forward_total E HE (length idxs) t None (batch_input _ _ _ Bt)) as (y & Ey & Sy & _).
    destruct (forward_total E HE N x None (batch_input _ _ _ (Hb E Ein))) as (yE & EyE & _ & _).
    exists (combine idxs (unstack y)). unfold F. rewrite Et. cbn [bind]. rewrite Ec. cbn [bind]. rewrite Ey. cbn [bind]. split; [reflexivity|].
    assert (LU: length idxs = length (unstack y)) by (unfold unstack; rewrite map_length, seq_length, Sy; reflexivity).
    cbn [fst snd]. split; [apply map_fst_combine; auto|]. intros i r Hir.
    destruct (in_combine_nth idxs (unstack y) i r 0 (trow y 0) LU Hir) as (p & Hp & E1 & E2).
    unfold unstack in E2. rewrite map_nth in E2. rewrite seq_nth in E2 by (rewrite Sy; auto). cbn [plus] in E2. subst r.
    unfold Q. cbn [trow shape]. rewrite Sy. cbn [tl]. rewrite (accepted_K o E A). split; auto. intros k Hk.
    exists E, yE. split; auto. split; auto. cbn [get trow].
    apply (forward_rows E HE (length idxs) N t x None y yE p i k (batch_input _ _ _ Bt) (batch_input _ _ _ (Hb E Ein)) Ey EyE Hp).
    - apply Hlt. rewrite <- E1. apply nth_In. auto.
    - rewrite (accepted_K o E A). auto.
    - intros c0 f _ _ _. rewrite ENt by auto. rewrite E1. reflexivity. }
  rewrite Ep. cbn [bind]. destruct (collected groups parts Q HP) as [Hfst HQ].
  destruct (reassemble (concat parts) N [nval (g_K g)]) as (y & Ey & Sy & Gy); auto.
  { rewrite Hfst. unfold groups. rewrite <- HL. apply groups_flat. }
  { intros i r Hi. destruct (HQ i r Hi) as (c & idxs & _ & _ & Hs & _). auto. }
  exists y. split; [exact Ey|]. split; auto. intros n k Hn Hk. destruct (Gy n Hn) as (r & Hr & Hg).
  destruct (HQ n r Hr) as (c & idxs & Hgr & Hi & _ & Hv). destruct (Hv k Hk) as (E & yE & H1 & H2 & H3).
  exists E, yE. destruct (groups_in _ _ _ Hgr) as [_ Hj]. rewrite (nth_error_nth cs n 0 (Hj n Hi)). rewrite Hg. auto.
Qed.
End Forward.

(** * Sampling *)
Lemma outcome_tag {V A} (supp : list nat -> V -> Prop) c (m : M V A) r :
  outcome supp (tag c m) r -> outcome (fun key => supp (c :: key)) m r.
Proof.
  revert r; induction m as [a|e|w k IH|key k IH]; cbn [tag]; intros r H; inversion H; subst; try (econstructor; eauto; fail); apply out_empty; auto.
Qed.
Lemma tag_outcome {V A} (supp : list nat -> V -> Prop) c (m : M V A) r :
  outcome (fun key => supp (c :: key)) m r -> outcome supp (tag c m) r.
Proof. induction 1; cbn [tag]; try (econstructor; eauto; fail); apply out_empty; auto. Qed.

(** The value [w] at channel [ch] and feature [f] comes from a leaf of component [c]: it was drawn there,
    or it is the mode of such a leaf if [mode] is set. *)
Definition from_component {V} (E : einet V) (supp : list nat -> V -> Prop) (mode : bool) (c ch f : nat) (w : V) : Prop :=
  exists l r, l < e_L E /\ r < e_R E /\
    if mode then exists md, lf_mode (leafE E) = Some md /\ w = md [ch; f; l; r] else supp [c; ch; f; l; r] w.

Lemma outcome_draws_all {V A B} (supp : list nat -> V -> Prop) (f : B -> M V A) (P : B -> A -> Prop) l r :
  (forall b, In b l -> forall r, outcome supp (f b) r -> exists a, r = Ok a /\ P b a) ->
  outcome supp (draws (map f l)) r -> exists xs, r = Ok xs /\ Forall2 P l xs.
Proof.
  revert r; induction l as [|b l IH]; cbn [map draws]; intros r H Ho.
  - inversion Ho; subst. eauto.
  - apply outcome_bind in Ho as [(e & Ho & ->)|(a & Ho & Hr)].
    + destruct (H b ltac:(left; auto) _ Ho) as (a & Z & _). discriminate.
    + destruct (H b ltac:(left; auto) _ Ho) as (a' & Z & Pa). inversion Z; subst a'.
      apply outcome_bind in Hr as [(e & Hr & ->)|(xs & Hr & Hx)].
      * destruct (IH _ (fun b Hb => H b (or_intror Hb)) Hr) as (xs & Z' & _). discriminate.
      * destruct (IH _ (fun b Hb => H b (or_intror Hb)) Hr) as (xs' & Z' & HF). inversion Z'; subst xs'.
        apply outcome_ret_inv in Hx. exists (a :: xs). auto.
Qed.

Section Sample.
Context {V : Type}.
Variable g : config.
Variable Es : list (einet V).
Hypothesis HA : forall E, In E Es -> exists o, accepted g o E.
Hypothesis Hctx : forall E, In E Es -> lf_ctx (leafE E) = true.

Lemma group_members cs N c idxs : length cs = N -> (forall c, In c cs -> c < length Es) -> In (c, idxs) (separate 0 cs []) ->
  idxs <> [] /\ c < length Es /\ forall j, In j idxs -> j < N /\ nth j cs 0 = c.
Proof.
  intros HL Hc Hin. destruct (groups_in _ _ _ Hin) as [Hne Hj]. split; auto. split.
  - destruct idxs as [|j idxs]; [contradiction|]. apply Hc. eapply nth_error_In. apply (Hj j). left. auto.
  - intros j Hij. pose proof (Hj j Hij) as Hn. split; [|apply nth_error_nth; auto]. rewrite <- HL. apply nth_error_Some. rewrite Hn. discriminate.
Qed.

(** ** With evidence *)
Lemma mix_given_ok (pred : tensor (option V) -> option (list nat) -> list nat) e ms N mpe T :
  (forall E, In E Es -> evidence E N e ms) -> 0 < N -> length (pred e ms) = N -> (forall c, In c (pred e ms) -> c < length Es) ->
  T <> 0%R -> (mpe = true -> forall E, In E Es -> lf_mode (leafE E) <> None) ->
  forall supp r, outcome supp (mix_sample_given Es pred (fun d => mkArgs None CNone (Some d) mpe false T ms) e ms) r ->
  exists t, r = Ok t /\ shape t = shape e /\
  forall n ch f, n < N -> ch < nval (g_C g) -> f < nval (g_F g) ->
    match observed e ms n ch f with
    | Some v => entry t n ch f = Some v
    | None => exists E w, nth_error Es (nth n (pred e ms) 0) = Some E /\ entry t n ch f = Some w /\
                from_component E supp mpe (nth n (pred e ms) 0) ch f w
    end.
Proof.
  intros Hb HN HL Hc HT Hmd supp r Ho. set (cs := pred e ms) in *. unfold mix_sample_given in Ho. fold cs in Ho. set (groups := separate 0 cs []) in *.
  assert (Hne: Es <> []).
  { intros Z. destruct cs as [|c cs'] eqn:Ec; [cbn in HL; lia|]. specialize (Hc c (or_introl eq_refl)). rewrite Z in Hc. cbn in Hc. lia. }
  assert (HW: wshape (shape e) N (nval (g_C g)) (nval (g_F g))).
  { destruct Es as [|E0 Es'] eqn:EE; [contradiction|]. destruct (HA E0 (or_introl eq_refl)) as (o & A).
    destruct (accepted_CF g o E0 A) as [<- <-]. apply (Hb E0). left. auto. }
  set (s := tl (shape e)).
  set (Q := fun c i (rr : tensor (option V)) => shape rr = s /\ forall ch f, ch < nval (g_C g) -> f < nval (g_F g) ->
    let x := get rr (tl (ix (shape e) i ch f)) in
    match observed e ms i ch f with
    | Some v => x = Some v
    | None => exists E w, nth_error Es c = Some E /\ x = Some w /\ from_component E supp mpe c ch f w
    end).
  apply outcome_bind in Ho.
  assert (HD: forall r, outcome supp (draws (map (fun '(c, idxs) =>
    data <~ lift (stack (map (trow e) idxs)) ;;
    E <~ lift (component Es c) ;;
    s <~ tag c (sample E (mkArgs None CNone (Some data) mpe false T ms)) ;;
    Ret (combine idxs (unstack s))) groups)) r ->
    exists parts, r = Ok parts /\ Forall2 (fun gr part => map fst part = snd gr /\ forall i r, In (i, r) part -> Q (fst gr) i r) groups parts).
  { intros r0. apply outcome_draws_all. clear r Ho. intros [c idxs] Hin r Ho.
    destruct (group_members cs N c idxs HL Hc Hin) as (Hni & Hc' & Hj).
    assert (Hlt: forall j, In j idxs -> j < N) by (intros; apply Hj; auto).
    destruct (component_ok Es c Hc') as (E & Ec & En & Ein). destruct (HA E Ein) as (o & A).
    destruct (Hb E Ein) as [Bt Hms].
    destruct (stack_ok (map (trow e) idxs) (tl (shape e))) as (t & Et & _).
    { destruct idxs; [contradiction|discriminate]. }
    { intros u Hu. apply in_map_iff in Hu as (j & <- & _). reflexivity. }
    destruct (sub_batch E N e idxs t Bt Hni Hlt Et) as (St & Bt' & ENt).
    rewrite Et in Ho. cbn [lift mbind] in Ho. rewrite Ec in Ho. cbn [lift mbind] in Ho.
    set (a := mkArgs None CNone (Some t) mpe false T ms) in *.
    assert (EN: num_samples a = length idxs) by (cbn; apply (batch_size E); auto).
    assert (Hk: 0 < length idxs) by (destruct idxs; [contradiction|cbn; lia]).
    assert (Hev: evidence E (length idxs) t ms).
    { split; auto. destruct ms as [S|]; auto. destruct Hms as [H1 H2]. split; auto. intros n c0 f Hn Hc0 Hf Hns. rewrite ENt by auto. apply H2; auto. apply Hlt, nth_In. auto. }
    pose proof (accepted_ok g o E A) as HE. destruct (accepted_CF g o E A) as [EC EF].
    destruct (sample_evidence_out E HE a t eq_refl) as [O _].
    { unfold check_args. cbn. destruct (e_K E =? 1); reflexivity. }
    { rewrite EN. apply evidence_input. auto. }
    { rewrite EN. auto. }
    { exact HT. }
    { apply Hctx. auto. }
    { cbn [a a_mpe a_mpel]. rewrite orb_false_r. intros Hm. apply Hmd; auto. }
    apply outcome_bind in Ho as [(e' & Ho & ->)|(u & Ho & Hr)].
    { apply outcome_tag in Ho. destruct (O _ _ Ho) as (u & Z & _). discriminate. }
    apply outcome_tag in Ho. destruct (O _ _ Ho) as (u' & Z & Su & Gu). inversion Z; subst u'. clear Z.
    apply outcome_ret_inv in Hr. eexists. split; [exact Hr|]. cbn [fst snd].
    assert (LU: length idxs = length (unstack u)) by (unfold unstack; rewrite map_length, seq_length, Su, St; reflexivity).
    split; [apply map_fst_combine; auto|]. intros i rr Hir.
    destruct (in_combine_nth idxs (unstack u) i rr 0 (trow u 0) LU Hir) as (p & Hp & E1 & E2).
    unfold unstack in E2. rewrite map_nth in E2. rewrite seq_nth in E2 by (rewrite Su, St; auto). cbn [plus] in E2. subst rr.
    unfold Q. cbn [trow shape get]. rewrite Su, St. cbn [tl]. split; auto. intros ch f Hch Hf.
    rewrite EN in Gu. specialize (Gu p ch f Hp ltac:(lia) ltac:(lia)). cbn [a a_ms] in Gu. rewrite <- observed_row in Gu.
    assert (EO: observed t ms p ch f = observed e ms i ch f) by (unfold observed; rewrite ENt, E1 by auto; reflexivity).
    rewrite EO in Gu.
    assert (EE: entry u p ch f = get u (p :: tl (ix (shape e) i ch f))).
    { unfold entry. rewrite Su, St. destruct (ix_sub _ _ _ _ i ch f HW) as (idx & X1 & X2). rewrite X1, X2. reflexivity. }
    rewrite EE in Gu. destruct (observed e ms i ch f) as [v|]; auto.
    destruct Gu as (w & Hw & l & r1 & Hl & Hr1 & Hf1). exists E, w. split; auto. split; auto. exists l, r1. split; auto. split; auto.
    cbn [a a_mpe a_mpel] in Hf1. rewrite orb_false_r in Hf1. exact Hf1. }
  destruct Ho as [(e' & Ho & ->)|(parts & Ho & Hr)].
  { destruct (HD _ Ho) as (p & Z & _). discriminate. }
  destruct (HD _ Ho) as (parts' & Z & HP). inversion Z; subst parts'. clear Z.
  destruct (collected groups parts Q HP) as [Hfst HQ].
  destruct (reassemble (concat parts) N s) as (y & Ey & Sy & Gy); auto.
  { rewrite Hfst. unfold groups. rewrite <- HL. apply groups_flat. }
  { intros i rr Hi. destruct (HQ i rr Hi) as (c & idxs & _ & _ & Hs & _). auto. }
  rewrite Ey in Hr. cbn [lift] in Hr. apply outcome_ret_inv in Hr. exists y. split; auto.
  assert (Es': shape e = N :: s) by (apply (wshape_sub _ _ _ _ 1 HW); lia).
  split; [congruence|]. intros n ch f Hn Hch Hf. destruct (Gy n Hn) as (rr & Hrr & Hg).
  destruct (HQ n rr Hrr) as (c & idxs & Hgr & Hi & _ & Hv).
  destruct (group_members cs N c idxs HL Hc Hgr) as (_ & _ & Hj). destruct (Hj n Hi) as [_ Ecn]. rewrite Ecn.
  specialize (Hv ch f Hch Hf). cbn zeta in Hv.
  assert (EE: entry y n ch f = get rr (tl (ix (shape e) n ch f))).
  { unfold entry. replace (shape y) with (shape e) by congruence. destruct (ix_sub _ _ _ _ n ch f HW) as (idx & X1 & _). rewrite X1. cbn [tl]. apply Hg. }
  rewrite EE. exact Hv.
Qed.

(** ** Without evidence *)
(** The component of every row of the concatenated samples. *)
Definition comps (groups : list (nat * list nat)) : list nat := flat_map (fun '(c, idxs) => repeat c (length idxs)) groups.
Lemma comps_map cs groups : (forall c l, In (c, l) groups -> forall j, In j l -> nth j cs 0 = c) ->
  comps groups = map (fun j => nth j cs 0) (flat groups).
Proof.
  induction groups as [|[c l] gs IH]; intros H; cbn [comps flat flat_map]; auto. fold (comps gs) (flat gs).
  rewrite map_app. cbn [snd]. rewrite IH by (intros c' l' H'; apply H; right; auto). f_equal.
  assert (Hl: forall j, In j l -> nth j cs 0 = c) by (apply H; left; auto). clear IH H.
  induction l as [|j l IH]; cbn; auto. rewrite (Hl j) by (left; auto). f_equal. apply IH. intros. apply Hl. right. auto.
Qed.
Lemma map_nth_seq (cs : list nat) : map (fun j => nth j cs 0) (seq 0 (length cs)) = cs.
Proof.
  induction cs as [|c cs IH] using rev_ind; auto. rewrite app_length. cbn [length]. rewrite Nat.add_1_r, seq_S_app, map_app. cbn [map plus].
  rewrite app_nth2, Nat.sub_diag by lia. cbn [nth]. f_equal. transitivity (map (fun j => nth j cs 0) (seq 0 (length cs))); [|auto].
  apply map_ext_in. intros j Hj. apply in_seq in Hj. apply app_nth1. lia.
Qed.
Lemma comps_perm cs : Permutation (comps (separate 0 cs [])) cs.
Proof.
  rewrite (comps_map cs). 2: { intros c l H j Hj. apply nth_error_nth. apply (groups_in _ _ _ H). auto. }
  rewrite groups_flat, map_nth_seq. reflexivity.
Qed.

(** The permutation of any list of keys. *)
Lemma permutation_of_any keys : keys <> [] -> exists perm, permutation_of keys = Ok perm /\ Permutation perm (seq 0 (length keys)).
Proof.
  intros Hk. eexists. split; [destruct keys; [contradiction|reflexivity]|].
  rewrite (Permutation_map snd (sort_pairs_perm _)), map_snd_combine by (rewrite seq_length; auto). reflexivity.
Qed.
(** Sorted keys stay where they are. *)
Lemma insert_pair_first a l : (forall b, In b l -> pair_leb a b = true) -> insert_pair a l = a :: l.
Proof. destruct l as [|b l]; cbn [insert_pair]; intros H; auto. rewrite (H b) by (left; auto). reflexivity. Qed.
Lemma sort_pairs_id keys i : sorted keys -> sort_pairs (combine keys (seq i (length keys))) = combine keys (seq i (length keys)).
Proof.
  revert i; induction keys as [|a l IH]; intros i S; cbn [length seq combine sort_pairs]; auto. inversion S; subst. rewrite IH by auto.
  apply insert_pair_first. intros [b j] Hb. pose proof (in_combine_l _ _ _ _ Hb) as Hb1. pose proof (in_combine_r _ _ _ _ Hb) as Hb2. apply in_seq in Hb2.
  specialize (H1 b Hb1). unfold pair_leb. cbn [fst snd]. destruct (Nat.ltb_spec a b); auto. cbn [orb]. apply andb_true_iff. split; [apply Nat.eqb_eq; lia|apply Nat.leb_le; lia].
Qed.
Lemma permutation_of_sorted keys : keys <> [] -> sorted keys -> permutation_of keys = Ok (seq 0 (length keys)).
Proof.
  intros Hk S. transitivity (@Ok (list nat) (map snd (sort_pairs (combine keys (seq 0 (length keys)))))); [destruct keys; [contradiction|reflexivity]|].
  rewrite sort_pairs_id by auto. rewrite map_snd_combine by (rewrite seq_length; auto). reflexivity.
Qed.
(** Sorted clusters are visited in order. *)
Inductive strict : list nat -> Prop :=
| strict_nil : strict []
| strict_cons a l : (forall b, In b l -> a < b) -> strict l -> strict (a :: l).
Lemma add_idx_last c i d : strict (map fst d) -> (forall k, In k (map fst d) -> k <= c) ->
  flat (add_idx c i d) = flat d ++ [i] /\ strict (map fst (add_idx c i d)) /\ (forall k, In k (map fst (add_idx c i d)) -> k <= c).
Proof.
  induction d as [|[c' l] d IH]; cbn [map fst add_idx]; intros S H.
  - split; [reflexivity|]. split; [constructor; [intros ? []|constructor]|]. intros k [<-|[]]. auto.
  - inversion S; subst. destruct (Nat.eqb_spec c c') as [->|Hc].
    + assert (d = []) as ->. { destruct d as [|[k l'] d]; auto. exfalso. specialize (H2 k (or_introl eq_refl)). specialize (H k (or_intror (or_introl eq_refl))). lia. }
      cbn [flat flat_map snd app map fst]. rewrite !app_nil_r. auto.
    + destruct (IH H3) as (E1 & E2 & E3); [intros k Hk; apply H; right; auto|]. cbn [flat flat_map snd map fst]. fold (flat d) (flat (add_idx c i d)).
      rewrite E1, app_assoc. split; auto. split; [|intros k [<-|Hk]; [apply H; left; auto|auto]].
      constructor; auto. intros b Hb. specialize (H c' (or_introl eq_refl)) as Hc'.
      assert (X: In b (map fst d) \/ b = c).
      { apply in_map_iff in Hb as ([b' l'] & <- & Hb). destruct (add_idx_in _ _ _ _ _ Hb) as [H'|(-> & _)]; auto. left. cbn. apply in_map_iff. exists (b', l'). auto. }
      destruct X as [X| ->]; [auto|lia].
Qed.
Lemma separate_sorted cs i d : sorted cs -> strict (map fst d) -> (forall k c, In k (map fst d) -> In c cs -> k <= c) ->
  flat (separate i cs d) = flat d ++ seq i (length cs).
Proof.
  revert i d; induction cs as [|c cs IH]; intros i d S Sd H; cbn [separate length seq]; [rewrite app_nil_r; auto|].
  inversion S; subst. destruct (add_idx_last c i d Sd (fun k Hk => H k c Hk (or_introl eq_refl))) as (E1 & E2 & E3).
  rewrite IH; auto.
  - rewrite E1, <- app_assoc. reflexivity.
  - intros k c' Hk Hc. specialize (E3 k Hk). specialize (H2 c' Hc). lia.
Qed.
Lemma comps_sorted cs : sorted cs -> comps (separate 0 cs []) = cs.
Proof.
  intros S. rewrite (comps_map cs). 2: { intros c l H j Hj. apply nth_error_nth. apply (groups_in _ _ _ H). auto. }
  rewrite separate_sorted; [|auto|constructor|intros ? ? []]. apply map_nth_seq.
Qed.

Lemma Forall2_flat {A B C D} (P : C -> D -> Prop) (h : A -> list C) (k : B -> list D) l l' :
  Forall2 (fun a b => Forall2 P (h a) (k b)) l l' -> Forall2 P (flat_map h l) (flat_map k l').
Proof. induction 1; cbn [flat_map]; [constructor|]. apply Forall2_app; auto. Qed.
Lemma Forall2_len {A B} (P : A -> B -> Prop) l l' : Forall2 P l l' -> length l = length l'.
Proof. induction 1; cbn; auto. Qed.
Lemma Forall2_nth {A B} (P : A -> B -> Prop) l l' da db i : Forall2 P l l' -> i < length l -> P (nth i l da) (nth i l' db).
Proof. intros H; revert i; induction H; intros [|i] Hi; cbn in *; try lia; auto. apply IHForall2. lia. Qed.
Lemma Forall2_intro {A B} (P : A -> B -> Prop) l l' : length l = length l' -> (forall i da db, i < length l -> P (nth i l da) (nth i l' db)) -> Forall2 P l l'.
Proof.
  revert l'; induction l as [|a l IH]; intros [|b l']; cbn; intros E H; try discriminate; constructor.
  - apply (H 0 a b). lia.
  - apply IH; auto. intros i da db Hi. apply (H (S i) da db). lia.
Qed.

Definition plain_class (cl : class_arg) : Prop := match cl with CNone => True | CInt y => 1 < nval (g_K g) /\ y < nval (g_K g) | CList _ => False end.
Lemma mix_free_ok cs cl mpe mpel T ms : cs <> [] -> (forall c, In c cs -> c < length Es) -> plain_class cl -> T <> 0%R ->
  (mpe || mpel = true -> forall E, In E Es -> lf_mode (leafE E) <> None) ->
  forall supp r, outcome supp (mix_sample_free Es (fun k => mkArgs (Some k) cl None mpe mpel T ms) cs) r ->
  exists t src, r = Ok t /\ shape t = [length cs; nval (g_C g); nval (g_F g)] /\ Permutation src cs /\ (sorted cs -> src = cs) /\
  (exists perm, permutation_of cs = Ok perm /\ src = map (fun j => nth j (comps (separate 0 cs [])) 0) perm) /\
  forall n ch f, n < length cs -> ch < nval (g_C g) -> f < nval (g_F g) ->
    exists E w, nth_error Es (nth n src 0) = Some E /\ entry t n ch f = Some w /\ from_component E supp (mpe || mpel) (nth n src 0) ch f w.
Proof.
  intros Hcs Hc Hcl HT Hmd supp r Ho. unfold mix_sample_free in Ho. set (groups := separate 0 cs []) in *.
  set (C := nval (g_C g)) in *. set (F := nval (g_F g)) in *.
  set (P := fun c (rr : tensor (option V)) => shape rr = [C; F] /\ forall ch f, ch < C -> f < F ->
    exists E w, nth_error Es c = Some E /\ get rr [ch; f] = Some w /\ from_component E supp (mpe || mpel) c ch f w).
  apply outcome_bind in Ho.
  match type of Ho with (exists e, outcome supp (draws (map ?f groups)) _ /\ _) \/ _ =>
    assert (HD: forall r, outcome supp (draws (map f groups)) r ->
      exists parts, r = Ok parts /\ Forall2 (fun (gr : nat * list nat) part => Forall2 P ((fun '(c, idxs) => repeat c (length idxs)) gr) (unstack part)) groups parts) end.
  { intros r0. apply outcome_draws_all. clear r Ho. intros [c idxs] Hin r Ho.
    destruct (group_members cs (length cs) c idxs eq_refl Hc Hin) as (Hni & Hc' & _).
    destruct (component_ok Es c Hc') as (E & Ec & En & Ein). destruct (HA E Ein) as (o & A).
    rewrite Ec in Ho. cbn [lift mbind] in Ho. apply outcome_tag in Ho. set (a := mkArgs (Some (length idxs)) cl None mpe mpel T ms) in *.
    assert (Hk: 0 < length idxs) by (destruct idxs; [contradiction|cbn; lia]).
    pose proof (accepted_ok g o E A) as HE. destruct (accepted_CF g o E A) as [EC EF]. pose proof (accepted_K g o E A) as EK.
    destruct (sample_free_out E HE a) as [O _].
    { unfold check_args. cbn [a a_class a_ev a_n]. destruct cl as [|y|l]; cbn; [destruct (e_K E =? 1); reflexivity| |contradiction].
      destruct Hcl as [H1 H2]. rewrite EK. destruct (Nat.eqb_spec (nval (g_K g)) 1); [lia|reflexivity]. }
    { unfold class_ok. cbn [a a_class]. rewrite EK. destruct cl; auto. contradiction. }
    { reflexivity. }
    { exact Hk. }
    { exact HT. }
    { apply Hctx. auto. }
    { intros Hm. apply Hmd; auto. }
    destruct (O _ _ Ho) as (t & -> & St & Gt). change (num_samples a) with (length idxs) in St, Gt. rewrite EC, EF in St, Gt. fold C F in St, Gt.
    exists t. split; auto.
    assert (LU: length (unstack t) = length idxs) by (unfold unstack; rewrite map_length, seq_length, St; reflexivity).
    apply Forall2_intro; [rewrite repeat_length; auto|]. intros i da db Hi. rewrite repeat_length in Hi.
    assert (E1: nth i (repeat c (length idxs)) da = c). { rewrite nth_indep with (d' := c) by (rewrite repeat_length; auto). apply nth_repeat. }
    assert (E2: nth i (unstack t) db = trow t i).
    { unfold unstack. rewrite St. cbn [hd]. apply nth_map_seq. auto. }
    rewrite E1, E2. split; [cbn; rewrite St; reflexivity|]. intros ch f Hch Hf. destruct (Gt i ch f Hi Hch Hf) as (w & Hw & l & r1 & Hl & Hr & Hf1).
    exists E, w. split; auto. split; [exact Hw|]. exists l, r1. auto. }
  destruct Ho as [(e' & Ho & ->)|(parts & Ho & Hr)].
  { destruct (HD _ Ho) as (p & Z & _). discriminate. }
  destruct (HD _ Ho) as (parts' & Z & HP). inversion Z; subst parts'. clear Z.
  apply Forall2_flat in HP. fold (comps groups) in HP.
  destruct (permutation_of_any cs Hcs) as (perm & Ep & Pp).
  assert (LC: length (comps groups) = length cs) by (apply Permutation_length, comps_perm).
  assert (LR: length (flat_map unstack parts) = length cs) by (rewrite <- LC; symmetry; eapply Forall2_len; eauto).
  assert (LP: length perm = length cs) by (rewrite (Permutation_length Pp); apply seq_length).
  assert (N0: 0 < length cs) by (destruct cs; [contradiction|cbn; lia]).
  destruct (stack_ok (flat_map unstack parts) [C; F]) as (all & Ea & Sa & Ga).
  { intros Z. rewrite Z in LR. cbn in LR. lia. }
  { intros u Hu. apply (In_nth _ _ (mkT [] (fun _ => None))) in Hu as (i & Hi & <-).
    apply (Forall2_nth P (comps groups) _ 0 (mkT [] (fun _ => None)) i HP). lia. }
  rewrite LR in Sa, Ga.
  assert (Hp: forall j, j < length cs -> nth j perm 0 < length cs).
  { intros j Hj. assert (Hin: In (nth j perm 0) (seq 0 (length cs))) by (eapply Permutation_in; [exact Pp|apply nth_In; lia]). apply in_seq in Hin. lia. }
  destruct (permuted_ok perm all (length cs) [C; F] LP Sa Hp) as (y & Ey & Sy & Gy).
  unfold cat_rows in Hr. rewrite Ea in Hr. cbn [bind] in Hr. rewrite Ep in Hr. cbn [bind] in Hr. rewrite Ey in Hr. cbn [lift] in Hr. apply outcome_ret_inv in Hr.
  set (src := map (fun j => nth j (comps groups) 0) perm). exists y, src. split; auto. split; auto.
  split. { unfold src. rewrite (Permutation_map _ Pp), <- LC, map_nth_seq. apply comps_perm. }
  split. { intros Hso. unfold src. rewrite (permutation_of_sorted cs Hcs Hso) in Ep. assert (perm = seq 0 (length cs)) as -> by congruence.
    unfold groups. rewrite (comps_sorted cs Hso). apply map_nth_seq. }
  split. { exists perm. auto. }
  intros n ch f Hn Hch Hf. assert (En: nth n src 0 = nth (nth n perm 0) (comps groups) 0).
  { unfold src. rewrite nth_indep with (d' := nth 0 (comps groups) 0) by (rewrite map_length; lia). apply (map_nth (fun j => nth j (comps groups) 0)). }
  rewrite En. destruct (Forall2_nth P (comps groups) _ 0 (trow all 0) (nth n perm 0) HP) as [_ Hv]; [rewrite LC; auto|].
  destruct (Hv ch f Hch Hf) as (E & w & H1 & H2 & H3). exists E, w. split; auto. split; auto.
  unfold entry. rewrite Sy. cbn [ix]. rewrite Gy by auto. rewrite (Ga _ _ (trow all 0)) by auto. exact H2.
Qed.
End Sample.
