(** Proofs about the object state: what calls return and what they leave behind. *)
From Coq Require Import List Arith Lia Bool ZArith Reals.
Import ListNotations.
From Verif Require Import Base RSum Num Tensor Prob Layers Leaf Einet State.

Section RefState.
Context {V G : Type}.
Variable manual_seed : Z -> G.
Variable draw_index : G -> list num -> nat * G.
Variable draw_leaf : leaf_layer V -> G -> list nat -> V * G.
Notation run := (run draw_index draw_leaf).
Notation st_sample := (st_sample manual_seed draw_index draw_leaf).
Notation exec := (exec manual_seed draw_index draw_leaf).
Notation history := (history manual_seed draw_index draw_leaf).
Implicit Types o : @obj V.

(** No input caches are enabled or filled. *)
Definition clean o : Prop := o_on o = false /\ o_ins o = map (fun _ => None) (e_layers (o_net o)) /\ o_mix o = None.
Lemma fresh_clean (E : einet V) : clean (fresh E).
Proof. repeat split. Qed.

Lemma run_bind {A B} lf (m : M V A) (f : A -> M V B) g :
  run lf (mbind m f) g = match run lf m g with (Ok a, g') => run lf (f a) g' | (Err e, g') => (Err e, g') end.
Proof.
  revert f g; induction m as [a|e|w k IH|key k IH]; intros f g; cbn [mbind State.run]; auto.
  - destruct (draw_index g w) as [i g']. apply IH.
  - destruct (draw_leaf lf g key) as [v g']. apply IH.
Qed.
Lemma run_lift {A} lf (r : res A) g : run lf (@lift V A r) g = (r, g).
Proof. destruct r; reflexivity. Qed.

(** * Layers *)
Lemma st_layers_off ls cs x : cs = map (fun _ => None) ls ->
  fst (st_layers false ls cs x) = cs /\ snd (st_layers false ls cs x) = ('(y, _) <- forward_layers ls x ;; Ok y).
Proof.
  revert cs x; induction ls as [|l ls IH]; intros cs x ->; [split; reflexivity|]. cbn [st_layers forward_layers map hd tl].
  destruct (layer_forward l x) as [[y c]|e]; cbn [bind]; [|split; reflexivity].
  specialize (IH (map (fun _ => None) ls) y eq_refl). destruct (st_layers false ls (map (fun _ => None) ls) y) as [cs' r].
  cbn [fst snd] in *. destruct IH as [-> ->]. split; [reflexivity|]. destruct (forward_layers ls y) as [[z c']|]; reflexivity.
Qed.
Lemma st_layers_on ls cs x y cs' : forward_layers ls x = Ok (y, cs') -> st_layers true ls cs x = (cs', Ok y).
Proof.
  revert cs x cs'; induction ls as [|l ls IH]; intros cs x cs' H.
  - cbn in *. inversion H; subst. reflexivity.
  - cbn [st_layers forward_layers] in *. destruct (layer_forward l x) as [[z c]|e]; cbn [bind] in H; [|discriminate].
    destruct (forward_layers ls z) as [[w c']|] eqn:E; cbn [bind] in H; [|discriminate]. inversion H; subst.
    rewrite (IH (tl cs) z c' E). reflexivity.
Qed.
Lemma st_layers_err on ls cs x e : forward_layers ls x = Err e -> snd (st_layers on ls cs x) = Err e.
Proof.
  revert cs x; induction ls as [|l ls IH]; intros cs x H; [discriminate|].
  cbn [st_layers forward_layers] in *. destruct (layer_forward l x) as [[z c]|e']; cbn [bind] in H; [|cbn; congruence].
  destruct (forward_layers ls z) as [[w c']|] eqn:E; cbn [bind] in H; [discriminate|]. inversion H; subst.
  specialize (IH (tl cs) z E). destruct (st_layers on ls (tl cs) z). exact IH.
Qed.
Lemma st_layers_length on ls cs x : length cs = length ls -> length (fst (st_layers on ls cs x)) = length ls.
Proof.
  revert cs x; induction ls as [|l ls IH]; intros cs x H; [reflexivity|]. destruct cs as [|c cs]; [discriminate|]. cbn in H.
  cbn [st_layers hd tl]. destruct (layer_forward l x) as [[y c']|e].
  - specialize (IH cs y ltac:(lia)). destruct (st_layers on ls cs y). cbn in *. lia.
  - cbn. lia.
Qed.

(** * Forward *)
(** The upper half in one piece. *)
Definition top (E : einet V) (x : tensor num) : res (tensor num * option cache) :=
  '(batch, features, channels, _) <- size4 x ;;
  _ <- assert (features =? 1) ;;
  _ <- assert (channels =? e_K E) ;;
  '(x, cm) <- (if 1 <? e_R E
               then m <- attr (e_mixing E) ;; '(y, c) <- mixing_forward m None x ;; Ok (y, Some c)
               else Ok (squeeze 3 x, None)) ;;
  let x := squeeze 1 x in
  _ <- assert (eqb_list (shape x) [batch; e_K E]) ;; Ok (x, cm).
Lemma mixing_cache m x y c : mixing_forward m None x = Ok (y, c) -> c = CIn x.
Proof. unfold mixing_forward. cbn [apply_mask bind]. destruct (badd x _); cbn [bind]; intros H; inversion H; auto. Qed.
Lemma st_top_spec on E old x :
  snd (st_top on E old x) = ('(y, _) <- top E x ;; Ok y) /\
  (on = false -> fst (st_top on E old x) = old) /\
  (forall y cm, top E x = Ok (y, cm) -> on = true -> old = None -> fst (st_top on E old x) = cm).
Proof.
  unfold st_top, top. destruct (size4 x) as [[[[b f] c] r]|e]; cbn [bind]; [|repeat split; intros; discriminate].
  destruct (assert (f =? 1)) as [[]|]; cbn [bind]; [|repeat split; intros; try discriminate; destruct (assert _); reflexivity].
  destruct (assert (c =? e_K E)) as [[]|]; cbn [bind]; [|repeat split; intros; discriminate].
  destruct (1 <? e_R E).
  - destruct (attr (e_mixing E)) as [m|]; cbn [bind]; [|repeat split; intros; discriminate].
    destruct (mixing_forward m None x) as [[y ca]|] eqn:Em; cbn [bind].
    + split; [|split].
      * destruct (assert _) as [[]|]; reflexivity.
      * intros ->. reflexivity.
      * intros y' cm H -> _. rewrite (mixing_cache _ _ _ _ Em) in H. destruct (assert _) as [[]|]; cbn [bind] in H; inversion H. reflexivity.
    + split; [reflexivity|]. split; [intros ->; reflexivity|intros; discriminate].
  - split; [|split]; cbn [bind fst snd].
    + destruct (assert _) as [[]|]; reflexivity.
    + auto.
    + intros y' cm H -> ->. destruct (assert _) as [[]|]; cbn [bind] in H; inversion H. reflexivity.
Qed.
Definition mid (E : einet V) (y : tensor num) : res (tensor num) :=
  y <- merge_channels E y ;;
  match e_perm E with None => Ok y | Some (p, _) => permute_reps (buffer (e_R E) (e_F E) p) (e_R E) y end.
Lemma forward_full_split E x ms : @forward_full V E x ms =
  (x <- prepare E x ;; y <- leaf_forward (e_leaf E) x ms ;; y <- mid E y ;;
   '(y, cs) <- forward_layers (e_layers E) y ;; '(y, cm) <- top E y ;; Ok (y, mkCaches cs cm)).
Proof.
  unfold forward_full, forward_upper, mid, top. destruct (prepare E x); cbn [bind]; auto. destruct (leaf_forward _ _ _); cbn [bind]; auto.
  destruct (merge_channels _ _); cbn [bind]; auto. destruct (match e_perm E with None => _ | _ => _ end); cbn [bind]; auto.
  destruct (forward_layers _ _) as [[y cs]|]; cbn [bind]; auto. destruct (size4 y) as [[[[b f] c] r]|]; cbn [bind]; auto.
  destruct (assert (f =? 1)); cbn [bind]; auto. destruct (assert (c =? e_K E)); cbn [bind]; auto.
  destruct (if 1 <? e_R E then _ else _) as [[z cm]|]; cbn [bind]; auto. destruct (assert _); reflexivity.
Qed.

(** What the leaf cache supplies for this call. *)
Definition cached o (ci : option nat) : option (tensor num) := match ci with Some i => lookup i (o_leaf o) | None => None end.
(** The result if the leaf log-likelihoods are [ry]. *)
Definition upper (E : einet V) (ry : res (tensor num)) : res (tensor num) :=
  y <- ry ;; y <- mid E y ;; '(y, _) <- forward_layers (e_layers E) y ;; '(y, _) <- top E y ;; Ok y.
Lemma forward_upper_eq E x ms : forward E x ms = (x <- prepare E x ;; upper E (leaf_forward (e_leaf E) x ms)).
Proof.
  unfold forward. rewrite forward_full_split. unfold upper. destruct (prepare E x); cbn [bind]; auto.
  destruct (leaf_forward _ _ _); cbn [bind]; auto. destruct (mid _ _); cbn [bind]; auto.
  destruct (forward_layers _ _) as [[y cs]|]; cbn [bind]; auto. destruct (top _ _) as [[z cm]|]; reflexivity.
Qed.
Definition leaf_result (E : einet V) (hit : option (tensor num)) x ms : res (tensor num) :=
  match hit with Some y => Ok y | None => leaf_forward (e_leaf E) x ms end.
Definition leafs_after o (ci : option nat) x ms : list (nat * tensor num) :=
  match cached o ci with
  | Some _ => o_leaf o
  | None => match ci, leaf_forward (e_leaf (o_net o)) x ms with Some i, Ok y => (i, y) :: o_leaf o | _, _ => o_leaf o end
  end.
(** What the call returns, whatever the state. *)
Lemma st_forward_result o x ms ci :
  snd (st_forward o x ms ci) = (x <- prepare (o_net o) x ;; upper (o_net o) (leaf_result (o_net o) (cached o ci) x ms)).
Proof.
  unfold st_forward. destruct (prepare (o_net o) x) as [x'|]; cbn [bind]; auto. fold (cached o ci).
  set (rl := leaf_result (o_net o) (cached o ci) x' ms).
  assert (E: exists leafs, match cached o ci with
     | Some y => (o_leaf o, Ok y)
     | None => match leaf_forward (e_leaf (o_net o)) x' ms with
               | Ok y => (match ci with Some i => (i, y) :: o_leaf o | None => o_leaf o end, Ok y)
               | Err e => (o_leaf o, Err e) end end = (leafs, rl)).
  { unfold rl, leaf_result. destruct (cached o ci); [eauto|]. destruct (leaf_forward _ _ _); eauto. }
  destruct E as [leafs ->]. unfold upper. destruct rl as [y|]; cbn [bind]; auto. unfold mid. destruct (merge_channels _ y) as [z|]; cbn [bind]; auto.
  destruct (match e_perm (o_net o) with None => _ | _ => _ end) as [w|]; cbn [bind]; auto.
  destruct (forward_layers (e_layers (o_net o)) w) as [[v cs]|e] eqn:EL; cbn [bind].
  - assert (X: exists cs', st_layers (o_on o) (e_layers (o_net o)) (o_ins o) w = (cs', Ok v)).
    { clear - EL. revert w cs v EL. generalize (o_ins o) as ins. induction (e_layers (o_net o)) as [|l ls IH]; intros ins w cs v H.
      - cbn in H. inversion H; subst. eexists; reflexivity.
      - cbn [st_layers forward_layers] in *. destruct (layer_forward l w) as [[z c]|]; cbn [bind] in H; [|discriminate].
        destruct (forward_layers ls z) as [[u c']|] eqn:E; cbn [bind] in H; [|discriminate]. inversion H; subst.
        destruct (IH (tl ins) z c' v E) as [cs' ->]. eauto. }
    destruct X as [cs' ->]. pose proof (proj1 (st_top_spec (o_on o) (o_net o) (o_mix o) v)) as T.
    destruct (st_top (o_on o) (o_net o) (o_mix o) v) as [cm r]. cbn [snd] in *. exact T.
  - pose proof (st_layers_err (o_on o) _ (o_ins o) _ _ EL) as X. destruct (st_layers _ _ _ _) as [cs' r]. cbn in X. subst r. reflexivity.
Qed.
(** What it leaves behind. *)
Lemma st_forward_state o x ms ci :
  o_net (fst (st_forward o x ms ci)) = o_net o /\ o_on (fst (st_forward o x ms ci)) = o_on o /\
  o_leaf (fst (st_forward o x ms ci)) = match prepare (o_net o) x with Ok x' => leafs_after o ci x' ms | Err _ => o_leaf o end /\
  (clean o -> clean (fst (st_forward o x ms ci))).
Proof.
  unfold st_forward. destruct (prepare (o_net o) x) as [x'|]; cbn [fst]; [|auto]. fold (cached o ci). unfold leafs_after.
  set (P := match cached o ci with Some y => _ | None => _ end).
  assert (HP: fst P = match cached o ci with
    | Some _ => o_leaf o
    | None => match ci, leaf_forward (e_leaf (o_net o)) x' ms with Some i, Ok y => (i, y) :: o_leaf o | _, _ => o_leaf o end end).
  { unfold P. destruct (cached o ci); auto. destruct (leaf_forward _ _ _), ci; reflexivity. }
  destruct P as [leafs ry]. cbn [fst] in HP.
  match goal with |- context [bind ry ?f] => destruct (bind ry f) as [w|e] eqn:EW end; cbn [fst o_net o_on o_leaf]; [|repeat split; try apply HP; apply H].
  destruct (st_layers (o_on o) (e_layers (o_net o)) (o_ins o) w) as [cs r] eqn:ES.
  assert (CL: clean o -> cs = map (fun _ => None) (e_layers (o_net o))).
  { intros (C1 & C2 & C3). rewrite C1 in ES. pose proof (st_layers_off _ _ w C2) as [X _]. rewrite ES in X. cbn in X. congruence. }
  destruct r as [v|e]; cbn [fst o_net o_on o_leaf].
  - pose proof (proj1 (proj2 (st_top_spec (o_on o) (o_net o) (o_mix o) v))) as T.
    destruct (st_top (o_on o) (o_net o) (o_mix o) v) as [cm r]. cbn [fst o_net o_on o_leaf] in *. repeat split; auto.
    + cbn. apply H.
    + cbn. rewrite T by apply H. apply H.
  - repeat split; auto; cbn; apply H.
Qed.
(** A successful forward pass with enabled empty caches fills them. *)
Lemma st_forward_on o x ms y cs : o_on o = true -> o_mix o = None ->
  forward_full (o_net o) x ms = Ok (y, cs) ->
  st_forward o x ms None = (mkObj (o_net o) (o_leaf o) true (ca_layers cs) (ca_mixing cs), Ok y).
Proof.
  intros Hon Hm H. rewrite forward_full_split in H. unfold st_forward. destruct (prepare (o_net o) x) as [x'|]; cbn [bind] in H; [|discriminate].
  destruct (leaf_forward _ _ _) as [z|]; cbn [bind] in *; [|discriminate]. fold (mid (o_net o) z). destruct (mid (o_net o) z) as [w|]; cbn [bind] in *; [|discriminate].
  destruct (forward_layers _ _) as [[v c]|] eqn:EL; cbn [bind] in *; [|discriminate]. destruct (top (o_net o) v) as [[u cm]|] eqn:ET; cbn [bind] in *; [|discriminate].
  inversion H; subst. rewrite Hon, Hm. rewrite (st_layers_on _ _ _ _ _ EL).
  pose proof (st_top_spec true (o_net o) None v) as (T1 & _ & T3). rewrite ET in T1. cbn [bind] in T1. specialize (T3 _ _ ET eq_refl eq_refl).
  destruct (st_top true (o_net o) None v) as [cm' r]. cbn in T1, T3. subst. reflexivity.
Qed.

(** * Sample *)
Lemma sample_body E (a : @sargs V) : sample E a =
  (_ <~ lift (check_args E a) ;; cs <~ lift (ev_caches E a) ;; body E a cs).
Proof.
  unfold sample, sample_ctx, body. destruct (check_args E a); cbn [lift mbind]; auto. destruct (ev_caches E a); cbn [lift mbind]; auto.
Qed.
Lemma map_none {A B} (f : A -> option B) (l : list A) : (forall x, In x l -> f x = None) -> map f l = map (fun _ => None) l.
Proof. intros H. apply map_ext_in. auto. Qed.
Lemma map_none_len {A B C} (l : list A) (m : list B) : length l = length m -> map (fun _ => @None C) l = map (fun _ => None) m.
Proof. revert m; induction l; intros [|b m]; simpl; intros H; try lia; auto. f_equal. apply IHl. lia. Qed.
Lemma forward_layers_length ls x y cs : forward_layers ls x = Ok (y, cs) -> length cs = length ls.
Proof.
  revert x y cs; induction ls as [|l ls IH]; intros x y cs H; cbn [forward_layers] in H; [inversion H; auto|].
  destruct (layer_forward l x) as [[z c]|]; cbn [bind] in H; [|discriminate].
  destruct (forward_layers ls z) as [[u c']|] eqn:E; cbn [bind] in H; [|discriminate]. inversion H; subst. cbn. f_equal. eauto.
Qed.
Lemma forward_full_length E x ms y cs : @forward_full V E x ms = Ok (y, cs) -> length (ca_layers cs) = length (e_layers E).
Proof.
  rewrite forward_full_split. destruct (prepare E x); cbn [bind]; [|discriminate]. destruct (leaf_forward _ _ _); cbn [bind]; [|discriminate].
  destruct (mid _ _); cbn [bind]; [|discriminate]. destruct (forward_layers _ _) as [[v c]|] eqn:EL; cbn [bind]; [|discriminate].
  destruct (top _ _) as [[u cm]|]; cbn [bind]; [|discriminate]. intros H. inversion H; subst. cbn. eapply forward_layers_length; eauto.
Qed.
Lemma st_sample_clean o g a seed : clean o ->
  snd (st_sample o g a seed) =
    fst (run (e_leaf (o_net o)) (sample (o_net o) a) (match seed with Some s => manual_seed s | None => g end)) /\
  (forall t, snd (st_sample o g a seed) = Ok t -> fst (fst (st_sample o g a seed)) = o /\
     (seed <> None -> snd (fst (st_sample o g a seed)) = g)) /\
  (a_ev a = None -> fst (fst (st_sample o g a seed)) = o).
Proof.
  intros (C1 & C2 & C3). unfold State.st_sample. rewrite sample_body, run_bind, run_lift.
  destruct (check_args (o_net o) a) as [[]|e]; cbn [fst snd]; [|repeat split; intros; discriminate].
  rewrite run_bind, run_lift. set (g1 := match seed with Some s => _ | None => g end). unfold enter, ev_caches.
  destruct (a_ev a) as [ev|] eqn:Ea.
  - set (o0 := mkObj (o_net o) (o_leaf o) true (o_ins o) (o_mix o)).
    destruct (forward_full (o_net o) ev (a_ms a)) as [[y cs]|e] eqn:EF; cbn [bind].
    + rewrite (st_forward_on o0 ev (a_ms a) y cs eq_refl C3 EF). cbn [bind o_net o_leaf o0 used_caches o_on o_ins o_mix].
      unfold used_caches. cbn [o_on o_ins o_mix]. replace (mkCaches (ca_layers cs) (ca_mixing cs)) with cs by (destruct cs; reflexivity).
      destruct (run (e_leaf (o_net o)) (body (o_net o) a cs) g1) as [[t|e] g2]; cbn [fst snd].
      * split; [reflexivity|]. split; [|intros; discriminate]. intros t' _. unfold leave. rewrite Ea. cbn. split.
        -- destruct o as [n l on ins mx]. cbn in *. subst. f_equal. apply map_none_len. apply (forward_full_length _ _ _ _ _ EF).
        -- destruct seed; congruence.
      * split; [reflexivity|]. split; intros; discriminate.
    + assert (R: snd (st_forward o0 ev (a_ms a) None) = Err e).
      { rewrite st_forward_result. pose proof (forward_upper_eq (o_net o) ev (a_ms a)) as H. unfold forward in H. rewrite EF in H. cbn [bind] in H. symmetry. exact H. }
      destruct (st_forward o0 ev (a_ms a) None) as [o1 r]. cbn in R. subst r. cbn [bind fst snd]. repeat split; intros; discriminate.
  - cbn [bind]. unfold used_caches. rewrite C1. destruct (run (e_leaf (o_net o)) (body (o_net o) a (no_caches (o_net o))) g1) as [[t|e] g2]; cbn [fst snd].
    + unfold leave. rewrite Ea. repeat split; auto. destruct seed; congruence.
    + repeat split; intros; try discriminate; auto.
Qed.
(** The result never depends on the generator when a seed is given. *)
Lemma st_sample_seeded o g g' a s : snd (st_sample o g a (Some s)) = snd (st_sample o g' a (Some s)) /\
  fst (fst (st_sample o g a (Some s))) = fst (fst (st_sample o g' a (Some s))).
Proof.
  unfold State.st_sample. destruct (check_args (o_net o) a); [|auto]. destruct (enter o a) as [o1 [[]|]]; [|auto].
  destruct (run _ _ _) as [[t|e] g2]; auto.
Qed.

(** * Histories *)
(** A sampling call with evidence did not raise inside the with statement. *)
Definition ends_well (E : einet V) (c : @call V) (r : @reply V) : Prop :=
  match c, r with
  | Sample a _, RSample (Err _) => a_ev a = None \/ check_args E a <> Ok tt
  | Update E', _ => length (e_layers E') = length (e_layers E)
  | _, _ => True
  end.
(** Every call of the history ended well. *)
Fixpoint all_well (s : obj * G) (cs : list (@call V)) : Prop :=
  match cs with
  | [] => True
  | c :: cs' => ends_well (o_net (fst s)) c (snd (exec s c)) /\ all_well (fst (exec s c)) cs'
  end.
Lemma exec_clean o g c : clean o -> ends_well (o_net o) c (snd (exec (o, g) c)) -> clean (fst (fst (exec (o, g) c))).
Proof.
  intros Hc Hw. destruct c as [x ms ci|a seed| |E]; cbn [State.exec] in *.
  - pose proof (proj2 (proj2 (proj2 (st_forward_state o x ms ci)))) as H. destruct (st_forward o x ms ci). cbn in *. auto.
  - pose proof (st_sample_clean o g a seed Hc) as (_ & H2 & H3).
    destruct (st_sample o g a seed) as [[o' g'] r] eqn:ES. cbn [fst snd ends_well] in *. destruct r as [t|e].
    + destruct (H2 t eq_refl) as [-> _]. auto.
    + destruct Hw as [Hw|Hw]; [rewrite (H3 Hw); auto|]. unfold State.st_sample in ES. destruct (check_args (o_net o) a) as [[]|]; [congruence|]. inversion ES; subst; auto.
  - destruct Hc as (H1 & H2 & H3). repeat split; auto.
  - destruct Hc as (H1 & H2 & H3). cbn in Hw. repeat split; auto. cbn. rewrite H2. apply map_none_len. auto.
Qed.
Lemma history_clean cs o g : clean o -> all_well (o, g) cs -> clean (fst (fst (history (o, g) cs))).
Proof.
  revert o g; induction cs as [|c cs IH]; intros o g Hc Hw; [exact Hc|]. cbn [State.history all_well] in *. destruct Hw as [Hw Hws].
  pose proof (exec_clean o g c Hc Hw) as H. destruct (exec (o, g) c) as [[o1 g1] r]. cbn [fst snd] in *. specialize (IH o1 g1 H Hws).
  destruct (history (o1, g1) cs) as [s2 rs]. exact IH.
Qed.

(** * The leaf cache *)
(** Every cached call gives the data that the cache index already stands for, and parameters change only
    while the cache is empty or if the leaf stays as it is. *)
Fixpoint well_used (E : einet V) (K : nat -> option (tensor (option V) * option (list nat))) (cs : list (@call V)) : Prop :=
  match cs with
  | [] => True
  | Forward x ms (Some i) :: cs' =>
      (forall x' ms', K i = Some (x', ms') -> x' = x /\ ms' = ms) /\
      well_used E (fun j => if j =? i then Some (x, ms) else K j) cs'
  | ResetCache :: cs' => well_used E (fun _ => None) cs'
  | Update E' :: cs' =>
      ((forall i, K i = None) \/ (e_leaf E' = e_leaf E /\ e_C E' = e_C E /\ e_F E' = e_F E)) /\ well_used E' K cs'
  | _ :: cs' => well_used E K cs'
  end.
(** Cached values are what the leaf returns for the recorded data. *)
Definition cache_ok o (K : nat -> option (tensor (option V) * option (list nat))) : Prop :=
  forall i y, lookup i (o_leaf o) = Some y -> exists x ms x', K i = Some (x, ms) /\ prepare (o_net o) x = Ok x' /\ leaf_forward (e_leaf (o_net o)) x' ms = Ok y.
Lemma st_forward_cached o x ms i K : cache_ok o K -> (forall x' ms', K i = Some (x', ms') -> x' = x /\ ms' = ms) ->
  snd (st_forward o x ms (Some i)) = forward (o_net o) x ms.
Proof.
  intros HK Hx. rewrite st_forward_result, forward_upper_eq. destruct (prepare (o_net o) x) as [x'|] eqn:Ep; cbn [bind]; auto. f_equal.
  unfold leaf_result, cached. destruct (lookup i (o_leaf o)) as [y|] eqn:El; auto. destruct (HK i y El) as (x1 & ms1 & x1' & H1 & H2 & H3).
  destruct (Hx _ _ H1) as [-> ->]. rewrite Ep in H2. inversion H2; subst. symmetry. exact H3.
Qed.
Lemma cache_ok_forward o x ms ci K : cache_ok o K ->
  match ci with
  | Some i => (forall x' ms', K i = Some (x', ms') -> x' = x /\ ms' = ms) ->
      cache_ok (fst (st_forward o x ms ci)) (fun j => if j =? i then Some (x, ms) else K j)
  | None => cache_ok (fst (st_forward o x ms ci)) K
  end.
Proof.
  intros HK. pose proof (st_forward_state o x ms ci) as (S1 & _ & S3 & _). destruct ci as [i|].
  - intros Hx j y. rewrite S1, S3. destruct (prepare (o_net o) x) as [x'|] eqn:Ep.
    + unfold leafs_after. cbn [cached]. destruct (lookup i (o_leaf o)) as [z|] eqn:El.
      * intros H. destruct (HK j y H) as (x1 & ms1 & x1' & H1 & H2 & H3). destruct (Nat.eqb_spec j i) as [->|].
        -- destruct (Hx _ _ H1) as [-> ->]. eauto 6.
        -- eauto 6.
      * destruct (leaf_forward _ _ _) as [z|] eqn:Ef.
        -- cbn [lookup]. destruct (Nat.eqb_spec j i) as [->|].
           ++ intros H. inversion H; subst. eauto 6.
           ++ intros H. apply HK in H. exact H.
        -- intros H. destruct (HK j y H) as (x1 & ms1 & x1' & H1 & H2 & H3). destruct (Nat.eqb_spec j i) as [->|]; [congruence|]. eauto 6.
    + intros H. destruct (HK j y H) as (x1 & ms1 & x1' & H1 & H2 & H3). destruct (Nat.eqb_spec j i) as [->|].
      * destruct (Hx _ _ H1) as [-> ->]. congruence.
      * eauto 6.
  - intros j y. rewrite S1, S3. intros H. apply HK. destruct (prepare (o_net o) x); auto.
Qed.
Lemma prepare_ext (E E' : einet V) x : e_C E' = e_C E -> e_F E' = e_F E -> prepare E' x = prepare E x.
Proof. intros H1 H2. unfold prepare. rewrite H1, H2. reflexivity. Qed.
Lemma st_sample_leaf o g a seed : o_leaf (fst (fst (st_sample o g a seed))) = o_leaf o /\ o_net (fst (fst (st_sample o g a seed))) = o_net o.
Proof.
  unfold State.st_sample. destruct (check_args (o_net o) a); [|auto].
  assert (X: o_leaf (fst (enter o a)) = o_leaf o /\ o_net (fst (enter o a)) = o_net o).
  { unfold enter. destruct (a_ev a) as [ev|]; [|auto].
    pose proof (st_forward_state (mkObj (o_net o) (o_leaf o) true (o_ins o) (o_mix o)) ev (a_ms a) None) as (S1 & _ & S3 & _).
    destruct (st_forward _ _ _ _) as [o' r]. cbn [fst o_net o_leaf] in *. split; [|auto]. rewrite S3. destruct (prepare _ _); auto. }
  destruct (enter o a) as [o1 [[]|]]; cbn [fst] in *; [|auto].
  destruct (run _ _ _) as [[t|e] g2]; cbn [fst]; [|auto]. unfold leave. destruct (a_ev a); cbn; auto.
Qed.
Lemma exec_cached o g c cs K : cache_ok o K -> well_used (o_net o) K (c :: cs) ->
  exists K', cache_ok (fst (fst (exec (o, g) c))) K' /\ well_used (o_net (fst (fst (exec (o, g) c)))) K' cs.
Proof.
  intros HK Hw. destruct c as [x ms ci|a seed| |E]; cbn [State.exec well_used] in *.
  - pose proof (cache_ok_forward o x ms ci K HK) as HF. pose proof (st_forward_state o x ms ci) as (S1 & _).
    destruct (st_forward o x ms ci) as [o' r]. cbn [fst] in *. rewrite S1. destruct ci as [i|]; [destruct Hw as [H1 H2]|]; eauto.
  - pose proof (st_sample_leaf o g a seed) as [S1 S2]. destruct (st_sample o g a seed) as [[o' g'] r]. cbn [fst] in *. rewrite S2. exists K. split; [|auto].
    intros i y. rewrite S1, S2. apply HK.
  - exists (fun _ => None). split; [|auto]. intros i y. discriminate.
  - destruct Hw as [H1 H2]. exists K. split; [|auto]. intros i y H. cbn [fst o_leaf o_net] in *. destruct (HK i y H) as (x1 & ms1 & x1' & G1 & G2 & G3).
    destruct H1 as [H1|(H1 & H3 & H4)]; [congruence|]. exists x1, ms1, x1'. rewrite (prepare_ext _ _ _ H3 H4), H1. auto.
Qed.
Lemma history_cached cs o g K x ms i : cache_ok o K -> well_used (o_net o) K (cs ++ [Forward x ms (Some i)]) ->
  let s := fst (history (o, g) cs) in
  snd (st_forward (fst s) x ms (Some i)) = forward (o_net (fst s)) x ms.
Proof.
  revert o g K; induction cs as [|c cs IH]; intros o g K HK Hw.
  - cbn [app well_used State.history fst] in *. destruct Hw as [Hx _]. apply (st_forward_cached o x ms i K); auto.
  - cbn [app State.history] in *. destruct (exec_cached o g c _ K HK Hw) as (K' & HK' & Hw').
    destruct (exec (o, g) c) as [[o1 g1] r]. cbn [fst] in *. specialize (IH o1 g1 K' HK' Hw').
    destruct (history (o1, g1) cs) as [s2 rs]. exact IH.
Qed.
End RefState.
