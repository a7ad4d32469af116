(** The calls that write in place touch only tensors they allocated, and compute what [Einet.v] says. *)
From Coq Require Import List Arith Lia Bool Reals FunctionalExtensionality.
Import ListNotations.
From Verif Require Import Base RSum Num Tensor Prob Layers Leaf Einet Heap.

Section RefHeap.
Context {V : Type}.
Implicit Types h : @heap V.

(** All tensors of [h] are in [h'] as they were. *)
Definition grows h h' : Prop := exists d n, h_data h' = h_data h ++ d /\ h_num h' = h_num h ++ n.
Lemma grows_refl h : grows h h.
Proof. exists [], []. rewrite !app_nil_r. auto. Qed.
Lemma grows_trans h1 h2 h3 : grows h1 h2 -> grows h2 h3 -> grows h1 h3.
Proof.
  intros (d & n & E1 & E2) (d' & n' & E3 & E4). exists (d ++ d'), (n ++ n'). rewrite E3, E4, E1, E2, !app_assoc. auto.
Qed.
Lemma grows_new_data h t : grows h (fst (new_data h t)).
Proof. exists [t], []. cbn. rewrite app_nil_r. auto. Qed.
Lemma grows_new_num h t : grows h (fst (new_num h t)).
Proof. exists [], [t]. cbn. rewrite app_nil_r. auto. Qed.
Lemma set_nth_app {A} (l m : list A) k v : length l <= k -> set_nth k v (l ++ m) = l ++ set_nth (k - length l) v m.
Proof. revert k; induction l as [|a l IH]; intros k H; simpl in *; [f_equal; lia|]. destruct k; [lia|]. simpl. f_equal. rewrite IH by lia. reflexivity. Qed.
Lemma set_nth_len {A} k (v : A) l : length (set_nth k v l) = length l.
Proof. revert k; induction l; intros [|k]; simpl; auto. Qed.
Lemma nth_set_nth_same {A} k (v d : A) l : k < length l -> nth k (set_nth k v l) d = v.
Proof. revert k; induction l as [|a l IH]; intros [|k] H; simpl in *; try lia; auto. apply IH. lia. Qed.
Lemma grows_write_num h0 h r upd : grows h0 h -> length (h_num h0) <= r_loc r -> grows h0 (write_num h r upd).
Proof. intros (d & n & E1 & E2) H. eexists d, _. cbn. split; [auto|]. rewrite E2 at 2. rewrite set_nth_app by auto. reflexivity. Qed.
Lemma grows_write_data h0 h r upd : grows h0 h -> length (h_data h0) <= r_loc r -> grows h0 (write_data h r upd).
Proof. intros (d & n & E1 & E2) H. eexists _, n. cbn. split; [|auto]. rewrite E1 at 2. rewrite set_nth_app by auto. reflexivity. Qed.
Lemma grows_read_data h h' r : grows h h' -> r_loc r < length (h_data h) -> read_data h' r = read_data h r.
Proof. intros (d & n & E1 & E2) H. unfold read_data. rewrite E1, app_nth1 by auto. reflexivity. Qed.
Lemma grows_read_num h h' r : grows h h' -> r_loc r < length (h_num h) -> read_num h' r = read_num h r.
Proof. intros (d & n & E1 & E2) H. unfold read_num. rewrite E2, app_nth1 by auto. reflexivity. Qed.
Lemma grows_len h h' : grows h h' -> length (h_num h) <= length (h_num h') /\ length (h_data h) <= length (h_data h').
Proof. intros (d & n & E1 & E2). rewrite E1, E2, !app_length. lia. Qed.

(** A reference to a whole tensor of this size that was allocated after [k] others. *)
Definition fresh_num (k : nat) h (r : ref) : Prop :=
  k <= r_loc r < length (h_num h) /\ r_map r = (fun i => i) /\ r_inv r = (fun i => i).
Lemma mkT_eta {A} (t : tensor A) : mkT (shape t) (get t) = t.
Proof. destruct t; reflexivity. Qed.
Lemma new_num_fresh h t : fresh_num (length (h_num h)) (fst (new_num h t)) (snd (new_num h t)) /\ read_num (fst (new_num h t)) (snd (new_num h t)) = t.
Proof.
  split.
  - repeat split; cbn; try lia. rewrite app_length. cbn. lia.
  - unfold read_num. cbn. rewrite app_nth2, Nat.sub_diag by lia. cbn. apply mkT_eta.
Qed.
Lemma write_num_read k h r upd : fresh_num k h r ->
  read_num (write_num h r upd) r = mkT (r_shape r) (fun i => match upd i with Some v => v | None => get (read_num h r) i end) /\
  fresh_num k (write_num h r upd) r.
Proof.
  intros ((H1 & H2) & Hm & Hi). split.
  - unfold read_num, write_num. cbn [h_num]. rewrite nth_set_nth_same by auto. unfold written. rewrite Hm, Hi. cbn. reflexivity.
  - unfold fresh_num, write_num. cbn. rewrite set_nth_len. auto.
Qed.
Lemma tensor_ext {A} s (f g : list nat -> A) : (forall i, f i = g i) -> mkT s f = mkT s g.
Proof. intros H. f_equal. apply functional_extensionality. auto. Qed.

(** What a heap program must do: keep the tensors of [h0], return a new tensor with the value [v] if that
    is defined, and fail with the same exception otherwise. *)
Definition returns h0 (p : @heap V * res ref) (v : res (tensor num)) : Prop :=
  grows h0 (fst p) /\
  match v with
  | Ok t => exists r, snd p = Ok r /\ fresh_num (length (h_num h0)) (fst p) r /\ read_num (fst p) r = t
  | Err e => snd p = Err e
  end.
Lemma hp_marginalize_spec h0 h r ms : grows h0 h -> fresh_num (length (h_num h0)) h r ->
  returns h0 (hp_marginalize h r ms) (marginalize_input (read_num h r) ms).
Proof.
  intros Hg Hf. unfold hp_marginalize, marginalize_input. destruct ms as [s|].
  - unfold size. cbn [shape read_num]. unfold guard. destruct (forallb _ s); cbn [bind].
    + destruct (write_num_read _ h r (fun i => if existsb (Nat.eqb (nth 2 i 0)) s then Some (Fin 0%R) else None) Hf) as [E F].
      split; [apply grows_write_num; auto; apply Hf|]. exists r. repeat split; auto; try apply F. cbn [fst]. rewrite E. apply tensor_ext. intros i. destruct (existsb _ s); auto.
    + split; auto.
  - destruct (write_num_read _ h r (fun i => if isnan (get (read_num h r) i) then Some (Fin 0%R) else None) Hf) as [E F].
    split; [apply grows_write_num; auto; apply Hf|]. exists r. repeat split; auto; try apply F. cbn [fst]. rewrite E. apply tensor_ext. intros i.
    destruct (isnan _); auto.
Qed.
Lemma hp_base_forward_spec lf h x ms : r_loc x < length (h_data h) ->
  returns h (hp_base_forward lf h x ms) (base_forward lf (read_data h x) ms).
Proof.
  intros Hx. unfold hp_base_forward, base_forward. set (xc := read_data h x). set (nan := existsb _ (all_idx (shape xc))).
  set (zero := fun o : option V => match o with Some v => v | None => lf_zero lf end).
  assert (X: exists h1 x1, (if nan then new_data h (tmap (fun o => Some (match o with Some v => v | None => lf_zero lf end)) xc) else (h, x)) = (h1, x1) /\ grows h h1 /\
             tmap zero (read_data h1 x1) = tmap zero xc /\ length (h_num h1) = length (h_num h)).
  { destruct nan.
    - eexists _, _. split; [reflexivity|]. split; [apply grows_new_data|]. split; [|reflexivity].
      unfold read_data. cbn. rewrite app_nth2, Nat.sub_diag by lia. cbn. reflexivity.
    - exists h, x. repeat split; auto. apply grows_refl. }
  destruct X as (h1 & x1 & -> & Hg & Ez & Ln). fold zero. rewrite Ez. destruct (dist_forward lf (tmap zero xc)) as [y|e]; cbn [bind]; [|split; auto].
  pose proof (new_num_fresh h1 y) as [Hf Hr]. pose proof (grows_new_num h1 y) as Hg1. rewrite Ln in Hf.
  destruct (new_num h1 y) as [h2 r] eqn:En. cbn [fst snd] in Hf, Hr, Hg1. assert (G2: grows h h2) by (eapply grows_trans; eauto).
  assert (Sr: r_shape r = shape y) by (rewrite <- Hr; reflexivity).
  destruct nan.
  - rewrite Sr. destruct (guard _ IndexErr); cbn [bind]; [|split; auto].
    set (upd := fun i => if is_nan (get xc (firstn (dim xc) i)) then Some NaN else None).
    destruct (write_num_read _ h2 r upd Hf) as [E F].
    replace (mkT (shape y) (fun idx => if is_nan (get xc (firstn (dim xc) idx)) then NaN else get y idx)) with (read_num (write_num h2 r upd) r).
    { apply hp_marginalize_spec; auto. apply grows_write_num; auto. apply Hf. }
    rewrite E, Sr, Hr. apply tensor_ext. intros i. unfold upd. destruct (is_nan _); auto.
  - cbn [bind]. rewrite <- Hr. apply hp_marginalize_spec; auto.
Qed.

(** * Forward *)
Lemma read_unsqueeze h d r : read_data h (ref_unsqueeze d r) = unsqueeze d (read_data h r).
Proof. reflexivity. Qed.
Lemma read_view h s r : match ref_view s r with Ok r' => view s (read_data h r) = Ok (read_data h r') /\ r_loc r' = r_loc r | Err e => view s (read_data h r) = Err e end.
Proof. unfold ref_view, view. cbn [shape read_data]. destruct (numel s =? numel (r_shape r)); auto. Qed.
Lemma hp_prepare_spec (E : einet V) h x : match hp_prepare E x with
  | Ok x' => prepare E (read_data h x) = Ok (read_data h x') /\ r_loc x' = r_loc x
  | Err e => prepare E (read_data h x) = Err e end.
Proof.
  unfold hp_prepare, prepare. unfold dim, size. cbn [shape read_data].
  set (x1 := if length (r_shape x) =? 2 then ref_unsqueeze 1 x else x).
  replace (if length (r_shape x) =? 2 then unsqueeze 1 (read_data h x) else read_data h x) with (read_data h x1).
  2:{ unfold x1. destruct (length (r_shape x) =? 2); auto. }
  assert (L1: r_loc x1 = r_loc x) by (unfold x1; destruct (length (r_shape x) =? 2); auto).
  cbn [shape read_data]. destruct (length (r_shape x1) =? 4).
  - unfold ref_view_infer, view_infer. cbn [shape read_data]. destruct (_ =? 0); [reflexivity|].
    pose proof (read_view h ([nth 0 (r_shape x1) 0; e_C E] ++ [numel (r_shape x1) / (numel [nth 0 (r_shape x1) 0; e_C E] * numel [])] ++ []) x1) as RV.
    destruct (ref_view _ x1) as [x2|]; [|rewrite RV; reflexivity]. destruct RV as [-> L2]. cbn [bind shape read_data].
    destruct (assert (length (r_shape x2) =? 3)); cbn [bind]; auto. destruct (assert (nth 1 (r_shape x2) 0 =? e_C E)); cbn [bind]; auto.
    destruct (assert (nth 2 (r_shape x2) 0 =? e_F E)); cbn [bind]; auto. split; [auto|congruence].
  - cbn [bind shape read_data]. destruct (assert (length (r_shape x1) =? 3)); cbn [bind]; auto. destruct (assert (nth 1 (r_shape x1) 0 =? e_C E)); cbn [bind]; auto.
    destruct (assert (nth 2 (r_shape x1) 0 =? e_F E)); cbn [bind]; auto.
Qed.
Lemma hp_permute_spec h0 h perm R r : grows h0 h -> fresh_num (length (h_num h0)) h r ->
  returns h0 (hp_permute h perm R r) (permute_reps perm R (read_num h r)).
Proof.
  intros Hg Hf. induction R as [|i IH]; cbn [hp_permute permute_reps].
  - split; [auto|]. exists r. auto.
  - destruct (hp_permute h perm i r) as [h1 p1]. destruct IH as [G1 IH]. cbn [fst snd] in *.
    destruct (permute_reps perm i (read_num h r)) as [t|e]; cbn [bind].
    + destruct IH as (r1 & -> & F1 & E1). unfold hp_permute_rep, permute_rep. rewrite E1.
      destruct (select 0 i perm) as [row|]; cbn [bind]; [|split; auto]. destruct (select 3 i t) as [xi|]; cbn [bind]; [|split; auto].
      destruct (index_dim 1 row xi) as [y|]; cbn [bind]; [|split; auto]. destruct (guard _ _); cbn [bind]; [|split; auto].
      set (upd := fun idx => if nth 3 idx 0 =? i then Some (get y (remove_nth 3 idx)) else None).
      destruct (write_num_read _ h1 r1 upd F1) as [E F]. split; [apply grows_write_num; auto; apply F1|].
      exists r1. split; [auto|]. split; [exact F|]. cbn [fst]. rewrite E, E1. rewrite <- E1. cbn [shape read_num]. apply tensor_ext. intros j. unfold upd.
      destruct (nth 3 j 0 =? i); auto.
    + rewrite IH. split; auto.
Qed.
Lemma hp_leaf_spec l h x ms : r_loc x < length (h_data h) -> returns h (hp_leaf l h x ms) (leaf_forward l (read_data h x) ms).
Proof.
  intros Hx. unfold hp_leaf, leaf_forward. pose proof (hp_base_forward_spec (leaf_of l) h x ms Hx) as [Hg H].
  destruct (hp_base_forward (leaf_of l) h x ms) as [h1 p1]. cbn [fst snd] in *. destruct (base_forward _ _ _) as [y|e]; cbn [bind].
  - destruct H as (r & -> & Hf & Hr). destruct l as [lf Fo sc|lf Fo p q|lf]; rewrite ?Hr.
    + destruct (fact_forward _ _ _ _) as [z|]; [|split; auto]. pose proof (new_num_fresh h1 z) as [F1 R1]. pose proof (grows_new_num h1 z) as G1.
      destruct (new_num h1 z) as [h2 r2]. cbn [fst snd] in *. split; [eapply grows_trans; eauto|]. exists r2. split; [auto|]. split; [|auto].
      destruct F1 as ((A & B) & C). split; [|auto]. pose proof (grows_len _ _ Hg). cbn. lia.
    + destruct (simple_forward _ _ _ _) as [z|]; [|split; auto]. pose proof (new_num_fresh h1 z) as [F1 R1]. pose proof (grows_new_num h1 z) as G1.
      destruct (new_num h1 z) as [h2 r2]. cbn [fst snd] in *. split; [eapply grows_trans; eauto|]. exists r2. split; [auto|]. split; [|auto].
      destruct F1 as ((A & B) & C). split; [|auto]. pose proof (grows_len _ _ Hg). cbn. lia.
    + split; [auto|]. exists r. auto.
  - rewrite H. split; auto.
Qed.
Definition same_but_perm (E : einet V) : einet V :=
  mkE (e_F E) (e_C E) (e_L E) (e_R E) (e_K E) (e_leaf E) None (e_layers E) (e_mixing E) (e_root E).
(** Everything after the leaf, as a function of the leaf output. *)
Definition after_leaf (E : einet V) (y : tensor num) : res (tensor num) :=
  y <- merge_channels E y ;; '(t, _) <- forward_upper E y ;; Ok t.
Lemma forward_after_leaf (E : einet V) x ms : @forward V E x ms =
  (x <- prepare E x ;; y <- leaf_forward (e_leaf E) x ms ;; after_leaf E y).
Proof.
  unfold forward, forward_full, after_leaf. destruct (prepare E x); cbn [bind]; auto. destruct (leaf_forward _ _ _); cbn [bind]; auto.
  destruct (merge_channels _ _); cbn [bind]; auto.
Qed.
Lemma upper_perm (E : einet V) y : forward_upper E y =
  (z <- match e_perm E with None => Ok y | Some (p, _) => permute_reps (buffer (e_R E) (e_F E) p) (e_R E) y end ;;
   forward_upper (same_but_perm E) z).
Proof. unfold forward_upper, same_but_perm. cbn [e_perm bind e_layers e_R e_K e_mixing]. destruct (match e_perm E with None => _ | _ => _ end); reflexivity. Qed.
Lemma merge_same (E : einet V) y z : merge_channels E y = Ok z -> match e_leaf E with LBase _ => True | _ => z = y end.
Proof. unfold merge_channels. destruct (e_leaf E); auto; destruct (assert _); cbn [bind]; intros H; inversion H; auto. Qed.
(** The forward pass keeps every existing tensor and returns what [forward] says; with a cache hit, what it
    says about the cached leaf output. *)
Theorem hp_forward_spec (E : einet V) h x ms hit : r_loc x < length (h_data h) ->
  (match e_leaf E with LBase _ => True | _ => e_perm E = None end) ->
  (forall r, hit = Some r -> r_loc r < length (h_num h)) ->
  let p := hp_forward E h x ms hit in
  grows h (fst p) /\
  (t <- snd p ;; Ok (snd t)) = (x <- prepare E (read_data h x) ;;
            y <- match hit with Some r => Ok (read_num h r) | None => leaf_forward (e_leaf E) x ms end ;; after_leaf E y) /\
  forall r t, snd p = Ok (r, t) -> match hit with
    | Some r' => r = r'
    | None => r_loc r < length (h_num (fst p)) /\
        exists x', prepare E (read_data h x) = Ok x' /\ leaf_forward (e_leaf E) x' ms = Ok (read_num (fst p) r)
    end.
Proof.
  intros Hx Hperm Hhit. unfold hp_forward. pose proof (hp_prepare_spec E h x) as HP. destruct (hp_prepare E x) as [x1|e].
  2:{ rewrite HP. cbn. repeat split; auto; [apply grows_refl|intros; discriminate]. }
  destruct HP as [-> Lx]. cbn [bind]. rewrite <- Lx in Hx.
  set (LR := match hit with Some r => Ok (read_num h r) | None => leaf_forward (e_leaf E) (read_data h x1) ms end).
  set (P := match hit with Some y => (h, Ok y) | None => hp_leaf (e_leaf E) h x1 ms end).
  assert (HL: grows h (fst P) /\ match LR with
     | Ok t => exists r, snd P = Ok r /\ r_loc r < length (h_num (fst P)) /\ read_num (fst P) r = t /\ match hit with Some r' => r = r' | None => True end
     | Err e => snd P = Err e end).
  { unfold P, LR. destruct hit as [r|].
    - split; [apply grows_refl|]. exists r. repeat split; auto.
    - destruct (hp_leaf_spec (e_leaf E) h x1 ms Hx) as [A B]. split; [auto|]. destruct (leaf_forward _ _ _); auto. destruct B as (r & B1 & B2 & B3). exists r. repeat split; auto. apply B2. }
  assert (HLR: hit = None -> leaf_forward (e_leaf E) (read_data h x1) ms = LR) by (intros Z; unfold LR; rewrite Z; auto).
  destruct P as [h1 p1]. cbn [fst snd] in HL. destruct HL as [G1 HL].
  destruct LR as [y|e]; cbn [bind].
  2:{ subst p1. cbn. repeat split; auto. intros; discriminate. }
  destruct HL as (r & -> & Lr & Er & Hr). rewrite Er. unfold after_leaf. destruct (merge_channels E y) as [z|e] eqn:EM; cbn [bind].
  2:{ repeat split; auto. intros; discriminate. }
  pose proof (merge_same E y z EM) as HM.
  assert (Fin: forall h2 r2, grows h h2 -> grows h1 h2 -> r2 = r -> match hit with Some r' => r2 = r' | None => r_loc r2 < length (h_num h2) /\
     exists x', Ok (read_data h x1) = Ok x' /\ leaf_forward (e_leaf E) x' ms = Ok (read_num h2 r2) end).
  { intros h2 r2 A B C. subst r2. destruct hit as [r'|]; auto. split.
    - pose proof (grows_len _ _ B). lia.
    - exists (read_data h x1). split; auto. rewrite (grows_read_num _ _ _ B Lr), Er. auto. }
  rewrite upper_perm. fold (same_but_perm E). destruct (e_leaf E) as [lf Fo sc|lf Fo pp qq|lf] eqn:El.
  - rewrite Hperm. subst z. cbn [bind fst snd]. rewrite Er.
    destruct (forward_upper (same_but_perm E) y) as [[v cs]|]; cbn [bind snd fst].
    + split; [auto|]. split; [auto|]. intros r2 t H. inversion H; subst. apply (Fin h1 _ G1 (grows_refl h1) eq_refl).
    + split; [auto|]. split; [auto|]. intros; discriminate.
  - rewrite Hperm. subst z. cbn [bind fst snd]. rewrite Er.
    destruct (forward_upper (same_but_perm E) y) as [[v cs]|]; cbn [bind snd fst].
    + split; [auto|]. split; [auto|]. intros r2 t H. inversion H; subst. apply (Fin h1 _ G1 (grows_refl h1) eq_refl).
    + split; [auto|]. split; [auto|]. intros; discriminate.
  - pose proof (new_num_fresh h1 z) as [F2 R2]. pose proof (grows_new_num h1 z) as G2. destruct (new_num h1 z) as [h2 r2]. cbn [fst snd] in F2, R2, G2.
    assert (HQ: exists h3 p3, match e_perm E with None => (h2, Ok r2) | Some (pp, _) => hp_permute h2 (buffer (e_R E) (e_F E) pp) (e_R E) r2 end = (h3, p3) /\ grows h1 h3 /\
      match (match e_perm E with None => Ok z | Some (pp, _) => permute_reps (buffer (e_R E) (e_F E) pp) (e_R E) z end) with
      | Ok t => exists r3, p3 = Ok r3 /\ read_num h3 r3 = t | Err e => p3 = Err e end).
    { destruct (e_perm E) as [[pp qq]|].
      - destruct (hp_permute_spec h1 h2 (buffer (e_R E) (e_F E) pp) (e_R E) r2 G2 F2) as [A B]. rewrite R2 in B.
        destruct (hp_permute _ _ _ _) as [h3 p3]. cbn [fst snd] in *. exists h3, p3. split; [auto|]. split; [auto|]. destruct (permute_reps _ _ _); auto.
        destruct B as (r3 & B1 & B2 & B3). eauto.
      - exists h2, (Ok r2). split; [auto|]. split; [auto|]. exists r2. auto. }
    destruct HQ as (h3 & p3 & -> & G3 & HQ). assert (G03: grows h h3) by (eapply grows_trans; eauto).
    destruct (match e_perm E with None => Ok z | _ => _ end) as [zz|]; cbn [bind].
    2:{ subst p3. cbn. repeat split; auto. intros; discriminate. }
    destruct HQ as (r3 & -> & E3). cbn [fst snd]. rewrite E3. destruct (forward_upper (same_but_perm E) zz) as [[v cs]|]; cbn [bind snd fst].
    + split; [auto|]. split; [auto|]. intros r4 t H. inversion H; subst. apply (Fin h3 _ G03 G3 eq_refl).
    + split; [auto|]. split; [auto|]. intros; discriminate.
Qed.

(** * Evidence *)
Theorem hp_merge_spec h ev ms s f32 : r_loc ev < length (h_data h) ->
  let p := hp_merge h ev ms s f32 in
  grows h (fst p) /\
  match merge_evidence (read_data h ev) ms s with
  | Ok t => exists r, snd p = Ok r /\ length (h_data h) <= r_loc r /\ r_shape r = shape t /\ forall i, inb (shape t) i -> get (read_data (fst p) r) i = get t i
  | Err e => snd p = Err e
  end.
Proof.
  intros Hev. unfold hp_merge, merge_evidence. set (c := read_data h ev). assert (Sc: shape c = r_shape ev) by reflexivity. clearbody c.
  assert (X: exists h1 l, hp_copy h c f32 = (h1, ref_of l c) /\ grows h h1 /\ length (h_data h) <= l < length (h_data h1) /\ nth l (h_data h1) no_data = c).
  { unfold hp_copy. destruct f32; cbn [new_data].
    - eexists _, _. split; [reflexivity|]. split; [apply grows_new_data|]. cbn. rewrite app_length. cbn. split; [lia|]. rewrite app_nth2, Nat.sub_diag by lia. reflexivity.
    - eexists _, _. split; [reflexivity|]. split; [eapply grows_trans; apply grows_new_data|]. cbn. rewrite !app_length. cbn. split; [lia|].
      rewrite app_nth2 by (rewrite app_length; cbn; lia). rewrite app_length. cbn. replace (_ - _) with 0 by lia. reflexivity. }
  destruct X as (h1 & l & -> & G & Hl & Nc). 
  destruct (Nat.eqb_spec (numel (shape s)) (numel (shape c))) as [En|En].
  2:{ unfold view at 1, ref_view. cbn [ref_of r_shape]. destruct (Nat.eqb_spec (numel (shape s)) (numel (shape c))); [lia|]. cbn. auto. }
  set (w := mkRef l (shape s) (fun i => unravel (shape c) (ravel (shape s) i)) (fun j => unravel (shape s) (ravel (shape c) j))).
  set (e := mkT (shape s) (fun idx => get c (unravel (shape c) (ravel (shape s) idx)))).
  assert (Ew: ref_view (shape s) (ref_of l c) = Ok w) by (unfold ref_view; cbn [ref_of r_shape]; rewrite En, Nat.eqb_refl; reflexivity).
  assert (Ee: view (shape s) c = Ok e) by (unfold view; rewrite En, Nat.eqb_refl; reflexivity).
  rewrite Ew, Ee. cbn [bind].
  assert (Key: forall (upd : list nat -> option (option V)) (out : tensor (option V)), shape out = shape s ->
     (forall i, inb (shape s) i -> get out i = match upd i with Some v => v | None => get e i end) ->
     let q := (write_data h1 w upd, ref_view (r_shape ev) w) in
     grows h (fst q) /\
     match view (shape c) out with
     | Ok t => exists r, snd q = Ok r /\ length (h_data h) <= r_loc r /\ r_shape r = shape t /\ forall i, inb (shape t) i -> get (read_data (fst q) r) i = get t i
     | Err x => snd q = Err x end).
  { intros upd out So Hu q. split; [apply grows_write_data; auto; cbn; lia|]. unfold view, q, ref_view. rewrite So. cbn [r_shape w fst snd]. rewrite <- Sc.
    destruct (Nat.eqb_spec (numel (shape c)) (numel (shape s))) as [_|]; [|lia]. eexists. split; [reflexivity|]. unfold w; cbn [r_loc r_shape shape]. split; [lia|]. split; [auto|].
    intros i Hi. unfold read_data, write_data. cbn [h_data get r_loc r_map r_shape]. rewrite nth_set_nth_same by lia. cbn [written get r_inv].
    pose proof (ravel_lt _ _ Hi) as Lt. rewrite (ravel_unravel (shape s)) by lia. rewrite (unravel_ravel _ _ Hi). rewrite Hu by (apply unravel_inb; lia).
    rewrite Nc. unfold e. cbn [get]. rewrite ravel_unravel by lia. rewrite (unravel_ravel _ _ Hi). reflexivity. }
  destruct ms as [m|].
  - unfold size. cbn [shape e r_shape w]. unfold guard. destruct (forallb _ m); cbn [bind]; [|split; auto].
    apply Key; [reflexivity|]. intros i Hi. cbn [get]. destruct (existsb _ m); auto.
  - cbn [bind]. apply Key; [reflexivity|]. intros i Hi. cbn [get]. unfold read_data. cbn [r_loc w]. rewrite Nc. cbn [get r_map]. fold e. unfold e. cbn [get].
    destruct (get c _); auto.
Qed.
End RefHeap.
