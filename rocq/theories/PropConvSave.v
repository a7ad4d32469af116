(** C90: a convolutional circuit is restored by loading its state dict into a model of the same configuration. *)
From Coq Require Import List Arith Lia Bool Reals String Lra.
Import ListNotations.
From Verif Require Import Base RSum Num Tensor Prob Layers Circuit Leaf Einet Build Spec Ex ConvPc RefConv RefConvNet RefConvS Save ConvSave PropSave PropConv.
Local Open Scope string_scope.
Local Open Scope list_scope.
Local Open Scope nat_scope.

(** * Names *)
Section Names.
Context {V X : Type}.
Lemma clay_names i l n : In n (map fst (clay_entries [Nm "layers"; Ix i] l)) ->
  n = [Nm "layers"; Ix i; Nm "logits"] \/ n = [Nm "layers"; Ix i; Nm "sum_layer"; Nm "logits"].
Proof. destruct l as [s|kh kw|[] s kh kw]; cbn; intros H; try contradiction; destruct H as [<-|[]]; auto. Qed.
Lemma clays_names i ls n : In n (map fst (clays_entries i ls)) ->
  exists j, i <= j /\ (n = [Nm "layers"; Ix j; Nm "logits"] \/ n = [Nm "layers"; Ix j; Nm "sum_layer"; Nm "logits"]).
Proof.
  revert i. induction ls as [|l ls IH]; intros i H; [destruct H|]. cbn [clays_entries] in H. rewrite map_app in H. apply in_app_or in H as [H|H].
  - exists i. split; [lia|]. exact (clay_names i l n H).
  - apply IH in H as (j & Hj & H). exists j. split; [lia|exact H].
Qed.
Lemma clays_nodup i ls : NoDup (map fst (clays_entries i ls)).
Proof.
  revert i. induction ls as [|l ls IH]; intros i; [constructor|]. cbn [clays_entries]. rewrite map_app. apply nodup_app; auto.
  - destruct l as [s|kh kw|[] s kh kw]; cbn; constructor; auto; constructor.
  - intros n H H'. apply clay_names in H. apply clays_names in H' as (j & Hj & H'). destruct H as [->| ->], H' as [E|E]; try discriminate E; injection E as E; lia.
Qed.
Lemma par_nodup p (par : list (string * tensor num)) : NoDup (map fst par) -> NoDup (map fst (par_entries p par)).
Proof.
  unfold par_entries. rewrite map_map. cbn [fst]. induction par as [|(s & t) par IH]; intros H; [constructor|]. cbn [map fst] in *.
  apply NoDup_cons_iff in H as (H1 & H2). constructor; auto. intros Hi. apply in_map_iff in Hi as ((s' & t') & E & Hi).
  apply app_inj_tail in E as (_ & E). cbn [fst] in E. injection E as ->. apply H1. apply (in_map fst) in Hi. exact Hi.
Qed.
Lemma cstate_nodup (m : cmodule V X) : NoDup (map fst (cm_par m)) -> NoDup (map fst (conv_state_dict m)).
Proof.
  intros Hp. unfold conv_state_dict. rewrite map_app. apply nodup_app; [apply par_nodup; exact Hp|apply clays_nodup|].
  intros n H H'. apply par_names in H as (s & _ & ->). apply clays_names in H' as (j & _ & [E|E]); discriminate E.
Qed.
End Names.

(** * Models of the same configuration *)
Definition like_csum (a b : csum) : Prop :=
  cs_in a = cs_in b /\ cs_out a = cs_out b /\ cs_h a = cs_h b /\ cs_w a = cs_w b /\ shape (cs_logits a) = shape (cs_logits b).
(** A SumProdLayer of an unknown order has no weights *)
Definition like_clay (a b : clayer) : Prop :=
  match a, b with
  | CSum s, CSum s' => like_csum s s'
  | CProd kh kw, CProd kh' kw' => kh = kh' /\ kw = kw'
  | CSumProd o s kh kw, CSumProd o' s' kh' kw' => o = o' /\ kh = kh' /\ kw = kw' /\ like_csum s s'
  | _, _ => False
  end.
(** Parameters are created with the shape asked for (conv_pc.py:307). *)
Definition shaped {V} (o : coracle V) : Prop := forall i sh, shape (co_logits o i sh) = sh.

Section Like.
Context {V : Type}.
Variables o o' : coracle V.
Hypothesis So : shaped o.
Hypothesis So' : shaped o'.
Lemma new_csum_like i cin cout h w : like_csum (new_csum o i cin cout h w) (new_csum o' i cin cout h w).
Proof. unfold like_csum, new_csum. cbn. rewrite So, So'. auto. Qed.
Lemma new_sumprod_like i cin cout h w kh kw ord l l' : new_sumprod o i cin cout h w kh kw ord = Ok l -> new_sumprod o' i cin cout h w kh kw ord = Ok l' -> like_clay l l'.
Proof.
  unfold new_sumprod. intros H H'. apply bind_ok in H as (? & _ & H). apply bind_ok in H' as (? & _ & H').
  destruct ord; injection H as <-; injection H' as <-; cbn [like_clay]; auto using new_csum_like.
Qed.
Lemma bottom_clike ord k chs : forall i h w ls ls', build_bottom o ord k i chs h w = Ok ls -> build_bottom o' ord k i chs h w = Ok ls' -> Forall2 like_clay ls ls'.
Proof.
  induction chs as [|c [|c' r] IH]; intros i h w ls ls' H H'; [discriminate H| |].
  - cbn [build_bottom] in H, H'. apply bind_ok in H as (l & Hl & H). injection H as <-. apply bind_ok in H' as (l' & Hl' & H'). injection H' as <-.
    constructor; [|constructor]. eapply new_sumprod_like; eauto.
  - change (build_bottom o ord k i (c :: c' :: r) h w) with
      (l <- new_sumprod o i c c' h w k k ord ;; ls <- build_bottom o ord k (S i) (c' :: r) (h / k) (w / k) ;; Ok (l :: ls)) in H.
    change (build_bottom o' ord k i (c :: c' :: r) h w) with
      (l <- new_sumprod o' i c c' h w k k ord ;; ls <- build_bottom o' ord k (S i) (c' :: r) (h / k) (w / k) ;; Ok (l :: ls)) in H'.
    apply bind_ok in H as (l & Hl & H). apply bind_ok in H as (r1 & Hr & H). injection H as <-.
    apply bind_ok in H' as (l' & Hl' & H'). apply bind_ok in H' as (r2 & Hr' & H'). injection H' as <-.
    constructor; [eapply new_sumprod_like; eauto|eapply IH; eauto].
Qed.
Lemma top_clike ord chs n i : forall h w acc acc' r r', Forall2 like_clay acc acc' ->
  build_top o ord chs n i h w acc = Ok r -> build_top o' ord chs n i h w acc' = Ok r' ->
  Forall2 like_clay (fst (fst r)) (fst (fst r')) /\ snd (fst r) = snd (fst r') /\ snd r = snd r'.
Proof.
  induction i as [|i IH]; intros h w acc acc' r r' Ha H H'; cbn [build_top] in H, H'.
  - injection H as <-. injection H' as <-. auto.
  - apply bind_ok in H as (l & Hl & H). apply bind_ok in H' as (l' & Hl' & H'). eapply IH; [|exact H|exact H'].
    constructor; auto. eapply new_sumprod_like; eauto.
Qed.
Lemma build_clike g C H W P P' : build_convpc o g C H W = Ok P -> build_convpc o' g C H W = Ok P' ->
  cp_C P = cp_C P' /\ cp_H P = cp_H P' /\ cp_W P = cp_W P' /\ cp_L P = cp_L P' /\ Forall2 like_clay (cp_layers P) (cp_layers P').
Proof.
  unfold build_convpc. destruct (cc_channels g) as [|c0 rest] eqn:Ec; [discriminate|]. intros HP HP'.
  apply bind_ok in HP as (lf & _ & HP). apply bind_ok in HP as (ls & Hls & HP). injection HP as <-.
  apply bind_ok in HP' as (lf' & _ & HP'). apply bind_ok in HP' as (ls' & Hls' & HP'). injection HP' as <-. cbn [cp_C cp_H cp_W cp_L cp_layers].
  repeat (split; [reflexivity|]). destruct (cc_struct g); [| |discriminate].
  - apply bind_ok in Hls as (((acc & h) & w) & Ht & Hls). injection Hls as <-. apply bind_ok in Hls' as (((acc' & h') & w') & Ht' & Hls'). injection Hls' as <-.
    assert (H0: Forall2 like_clay [CSum (new_csum o 0 (last (c0 :: rest) 0) 1 1 1)] [CSum (new_csum o' 0 (last (c0 :: rest) 0) 1 1 1)])
      by (constructor; [exact (new_csum_like 0 _ 1 1 1)|constructor]).
    destruct (top_clike _ _ _ _ _ _ _ _ _ _ H0 Ht Ht') as (A & B & D). cbn [fst snd] in *. subst h' w'.
    constructor; [cbn; auto|exact A].
  - eapply bottom_clike; eauto.
Qed.
End Like.

(** * Loading *)
Section Load.
Variable d : dict.
Hypothesis Hd : NoDup (map fst d).
Lemma load_csum_in p s s' : In (p ++ [Nm "logits"], VNum (cs_logits s')) d -> like_csum s' s -> load_csum d p s = Ok s'.
Proof.
  intros H (E1 & E2 & E3 & E4 & E5). unfold load_csum. rewrite (load_num_in _ Hd _ _ _ H E5). cbn [bind]. rewrite <- E1, <- E2, <- E3, <- E4.
  destruct s'; reflexivity.
Qed.
(** What is loaded into layer [l'] from the entries of layer [l] *)
Definition loaded (l l' : clayer) : clayer := match l with CSumProd OOther _ _ _ => l' | _ => l end.
Lemma load_clay_in p l l' : incl (clay_entries p l) d -> like_clay l l' -> load_clay d p l' = Ok (loaded l l').
Proof.
  intros H Hl. destruct l as [s|kh kw|o s kh kw], l' as [s'|kh' kw'|o' s' kh' kw']; cbn [like_clay] in Hl; try contradiction; cbn [load_clay loaded].
  - rewrite (load_csum_in p s' s); [reflexivity|apply H; left; reflexivity|exact Hl].
  - destruct Hl as (-> & ->). reflexivity.
  - destruct Hl as (-> & -> & -> & Hl). destruct o'; [| |reflexivity];
      (rewrite (load_csum_in _ s' s); [reflexivity|apply H; left; reflexivity|exact Hl]).
Qed.
Lemma load_clays_in ls : forall i ls', incl (clays_entries i ls) d -> Forall2 like_clay ls ls' ->
  load_clays d i ls' = Ok (map (fun p => loaded (fst p) (snd p)) (combine ls ls')).
Proof.
  induction ls as [|l ls IH]; intros i ls' H Hl; inversion Hl as [|? l' ? r' H1 H2]; subst; [reflexivity|]. cbn [clays_entries] in H. cbn [load_clays combine map fst snd].
  rewrite (load_clay_in _ l l'); [cbn [bind]|intros e He; apply H; apply in_or_app; auto|auto].
  rewrite (IH (S i) r'); [reflexivity|intros e He; apply H; apply in_or_app; auto|auto].
Qed.
End Load.

(** * Layers that behave alike *)
Definition alike {V} (l l' : clayer) : Prop :=
  (forall x, clayer_forward l x = clayer_forward l' x) /\
  (forall T mpe ca p, clayer_sample (V := V) T mpe l ca p = clayer_sample T mpe l' ca p).
Section Alike.
Context {V X : Type}.
Lemma loaded_alike l l' : like_clay l l' -> alike (V := V) (loaded l l') l.
Proof.
  intros H. destruct l as [s|kh kw|[] s kh kw]; cbn [loaded]; try (split; reflexivity). destruct l' as [s'|kh' kw'|o' s' kh' kw']; try contradiction.
  destruct H as (<- & _). split; reflexivity.
Qed.
Lemma alike_forward ls ls' : Forall2 (alike (V := V)) ls ls' -> forall x, clayers_forward ls x = clayers_forward ls' x.
Proof.
  induction 1 as [|l l' ls ls' (Hf & _) Hr IH]; intros x; [reflexivity|]. cbn [clayers_forward]. rewrite Hf. destruct (clayer_forward l' x) as (c & [y|e]).
  - rewrite IH. reflexivity.
  - f_equal. f_equal. clear -Hr. induction Hr; cbn; congruence.
Qed.
Lemma alike_sample ls ls' : Forall2 (alike (V := V)) ls ls' -> forall T mpe cs p,
  clayers_sample (V := V) T mpe (combine ls cs) p = clayers_sample T mpe (combine ls' cs) p.
Proof.
  induction 1 as [|l l' ls ls' (_ & Hs) Hr IH]; intros T mpe cs p; [reflexivity|]. destruct cs as [|c cs]; [reflexivity|]. cbn [combine clayers_sample].
  rewrite IH. f_equal. apply FunctionalExtensionality.functional_extensionality. intros q. apply Hs.
Qed.
Lemma alike_none ls ls' : Forall2 (alike (V := V)) ls ls' -> map (fun _ => @None (tensor num)) ls = map (fun _ => None) ls'.
Proof. induction 1; cbn; congruence. Qed.
Lemma loaded_all ls ls' : Forall2 like_clay ls ls' -> Forall2 (alike (V := V)) (map (fun p => loaded (fst p) (snd p)) (combine ls ls')) ls.
Proof. induction 1; cbn [combine map fst snd]; constructor; auto using loaded_alike. Qed.
Lemma loaded_entries ls : forall i ls', Forall2 like_clay ls ls' -> clays_entries i (map (fun p => loaded (fst p) (snd p)) (combine ls ls')) = clays_entries i ls.
Proof.
  induction ls as [|l ls IH]; intros i ls' H; inversion H as [|? l' ? r' H1 H2]; subst; [reflexivity|]. cbn [combine map fst snd clays_entries]. rewrite IH by exact H2.
  f_equal. destruct l as [s|kh kw|[] s kh kw]; try reflexivity. destruct l' as [s'|kh' kw'|o' s' kh' kw']; try contradiction. destruct H1 as (<- & _). reflexivity.
Qed.
Lemma alike_net_forward C H W L (lf : bleaf V) ls ls' st data : Forall2 (alike (V := V)) ls ls' ->
  conv_forward (mkCP C H W L lf ls) st data = conv_forward (mkCP C H W L lf ls') st data.
Proof.
  intros Ha. unfold conv_forward. change (leaf_images (mkCP C H W L lf ls) data) with (leaf_images (mkCP C H W L lf ls') data).
  destruct (leaf_images _ data) as [y|e]; [|reflexivity]. cbn [cp_layers]. rewrite (alike_forward _ _ Ha). reflexivity.
Qed.
Lemma alike_net_sample C H W L (lf : bleaf V) ls ls' val st st' a : Forall2 (alike (V := V)) ls ls' -> st_on st = false -> st_on st' = false ->
  snd (conv_sample (mkCP C H W L lf ls) val st a) = snd (conv_sample (mkCP C H W L lf ls') val st' a).
Proof.
  intros Ha Hs Hs'. unfold conv_sample. destruct (ca_num a) as [n|], (ca_ev a) as [ev|]; try reflexivity. cbn [snd]. unfold conv_free, live.
  rewrite Hs, Hs'. cbn [cp_layers cp_leaf cp_C cp_H cp_W]. rewrite (alike_none _ _ Ha), (alike_sample _ _ Ha). reflexivity.
Qed.
Lemma clays_names_eq ls : forall i ls', Forall2 like_clay ls ls' -> map fst (clays_entries i ls) = map fst (clays_entries i ls').
Proof.
  induction ls as [|l ls IH]; intros i ls' H; inversion H as [|? l' ? r' H1 H2]; subst; [reflexivity|]. cbn [clays_entries]. rewrite !map_app, (IH (S i) r' H2). f_equal.
  destruct l as [s|kh kw|o s kh kw], l' as [s'|kh' kw'|o' s' kh' kw']; cbn in H1; try contradiction; [reflexivity..|]. destruct H1 as (-> & _).
  destruct o'; reflexivity.
Qed.
End Alike.

(** * Loading any dict *)
Section Strict.
Context {V X : Type}.
Variable d : dict.
Lemma load_csum_ok p s s' : load_csum d p s = Ok s' -> tracks d (csum_entries p s) (csum_entries p s').
Proof.
  unfold load_csum. intros H. apply bind_ok in H as (t & Ht & H). injection H as <-. apply load_num_ok in Ht as (Hf & Hs). unfold csum_entries. cbn [cs_logits].
  apply tracks_one; auto. unfold sig. cbn. rewrite Hs. reflexivity.
Qed.
Lemma load_clays_ok ls : forall i ls', load_clays d i ls = Ok ls' -> tracks d (clays_entries i ls) (clays_entries i ls').
Proof.
  induction ls as [|l ls IH]; intros i ls' H; cbn [load_clays] in H; [injection H as <-; constructor|].
  apply bind_ok in H as (l' & Hl & H). apply bind_ok in H as (r & Hr & H). injection H as <-. cbn [clays_entries]. apply tracks_app; auto.
  destruct l as [s|kh kw|[] s kh kw]; cbn [load_clay] in Hl; try (apply bind_ok in Hl as (s' & Hs & Hl)); injection Hl as <-; cbn [clay_entries];
    try (apply load_csum_ok; exact Hs); constructor.
Qed.
Lemma cload_tracks (m m' : cmodule V X) : conv_load_state_dict d m = Ok m' ->
  no_unexpected d (conv_state_dict m) = Ok tt /\ tracks d (conv_state_dict m) (conv_state_dict m').
Proof.
  unfold conv_load_state_dict. intros H. apply bind_ok in H as ([] & Hu & H). split; [exact Hu|].
  apply bind_ok in H as (par & Hpar & H). apply bind_ok in H as (ls & Hls & H). injection H as <-. unfold conv_state_dict. cbn [cm_net cm_par cp_layers].
  apply tracks_app; [apply load_par_ok; exact Hpar|apply load_clays_ok; exact Hls].
Qed.
Lemma load_csum_fits a p s : fits d a -> In (p ++ [Nm "logits"], VNum (cs_logits s)) a -> exists s', load_csum d p s = Ok s'.
Proof. intros H Hi. unfold load_csum. destruct (load_num_fits d a _ _ H Hi) as (t' & ->). eexists. reflexivity. Qed.
Lemma load_clays_fits ls : forall i, fits d (clays_entries i ls) -> exists ls', load_clays d i ls = Ok ls'.
Proof.
  induction ls as [|l ls IH]; intros i H; [eexists; reflexivity|]. cbn [clays_entries] in H. cbn [load_clays].
  assert (Hl: exists l', load_clay d [Nm "layers"; Ix i] l = Ok l').
  { apply fits_l in H. destruct l as [s|kh kw|[] s kh kw]; cbn [load_clay clay_entries] in *; try (eexists; reflexivity).
    - destruct (load_csum_fits _ [Nm "layers"; Ix i] s H) as (s' & ->); [left; reflexivity|eexists; reflexivity].
    - destruct (load_csum_fits _ ([Nm "layers"; Ix i] ++ [Nm "sum_layer"]) s H) as (s' & ->); [left; reflexivity|eexists; reflexivity].
    - destruct (load_csum_fits _ ([Nm "layers"; Ix i] ++ [Nm "sum_layer"]) s H) as (s' & ->); [left; reflexivity|eexists; reflexivity]. }
  destruct Hl as (l' & ->). cbn [bind]. destruct (IH (S i) (fits_r _ _ _ H)) as (r & ->). eexists. reflexivity.
Qed.
Lemma cload_fits (m : cmodule V X) : no_unexpected d (conv_state_dict m) = Ok tt -> fits d (conv_state_dict m) -> exists m', conv_load_state_dict d m = Ok m'.
Proof.
  intros Hu H. unfold conv_load_state_dict. rewrite Hu. cbn [bind]. unfold conv_state_dict in H.
  destruct (load_par_fits d _ _ (fits_l _ _ _ H)) as (par & ->). cbn [bind]. destruct (load_clays_fits _ _ (fits_r _ _ _ H)) as (ls & ->). eexists. reflexivity.
Qed.
Lemma load_csum_err p s e : load_csum d p s = Err e -> e = RuntimeErr.
Proof. unfold load_csum. destruct (load_num _ _ _) eqn:E; cbn; [discriminate|]. intros H. injection H as <-. eapply load_num_err; eauto. Qed.
Lemma cload_err (m : cmodule V X) e : conv_load_state_dict d m = Err e -> e = RuntimeErr.
Proof.
  unfold conv_load_state_dict. unfold no_unexpected at 1, guard. destruct (forallb _ _); cbn [bind]; [|congruence].
  destruct (load_par _ _ _) as [par|e1] eqn:E1; cbn [bind].
  2:{ intros H. injection H as <-. revert E1. unfold load_par. induction (cm_par m) as [|(s & t) par IH]; cbn [mapM]; [discriminate|].
      cbn [fst snd]. destruct (load_num _ _ _) eqn:E; cbn [bind]; [|intros H; injection H as <-; eapply load_num_err; eauto].
      destruct (mapM _ par) eqn:Em; cbn [bind]; [discriminate|]. auto. }
  destruct (load_clays _ _ _) as [ls|e3] eqn:E3; cbn [bind]; [discriminate|].
  intros H. injection H as <-. revert E3. generalize 0. induction (cp_layers (cm_net m)) as [|l ls IH]; intros i; cbn [load_clays]; [discriminate|].
  destruct (load_clay _ _ l) eqn:El; cbn [bind].
  - destruct (load_clays d (S i) ls) eqn:Er; cbn [bind]; [discriminate|]. intros H. injection H as <-. eapply IH; eauto.
  - intros H. injection H as <-. destruct l as [s|kh kw|[] s kh kw]; cbn [load_clay] in El; try discriminate;
      (destruct (load_csum _ _ _) eqn:Es; cbn in El; [discriminate|]; injection El as <-; eapply load_csum_err; eauto).
Qed.
End Strict.

(** * Theorems *)
(** A model with its caches in another state *)
Definition cached {V X} (m : cmodule V X) (st : cstate) : cmodule V X := mkCM (cm_net m) (cm_par m) (cm_x m) st.

Section Theorems.
Context {V X : Type}.

(** Any model is restored in any other model of the same configuration: the same entries, the same log-likelihoods and,
    while neither has its caches switched on, the same samples. *)
Theorem C90_restored_partial (cls : leaf_class V X) g C H W (o o' : coracle V) par par' x m m' st st' :
  shaped o -> shaped o' -> same_class par par' ->
  new_cmodule g C H W o par x = Ok m -> new_cmodule g C H W o' par' x = Ok m' ->
  exists r, conv_load_state_dict (conv_state_dict (cached m st)) (cached m' st') = Ok r /\ cm_st r = st' /\
    conv_state_dict r = conv_state_dict m /\
    (forall data, cmodule_forward cls r data = cmodule_forward cls (cached m st) data) /\
    (st_on st = false -> st_on st' = false -> forall val a, cmodule_sample cls val r a = cmodule_sample cls val (cached m st) a).
Proof.
  intros So So' (Hn & Hp) Hm Hm'. unfold new_cmodule in Hm, Hm'. apply bind_ok in Hm as (P & HP & Hm). apply bind_ok in Hm' as (P' & HP' & Hm').
  injection Hm as <-. injection Hm' as <-. destruct (build_clike o o' So So' g C H W P P' HP HP') as (E1 & E2 & E3 & E4 & Hl).
  set (m := mkCM P par x st). change (cached _ st) with m. unfold cached. cbn [cm_net cm_par cm_x].
  assert (Hd: NoDup (map fst (conv_state_dict m))) by (apply cstate_nodup; exact Hn).
  set (ls := map (fun p => loaded (fst p) (snd p)) (combine (cp_layers P) (cp_layers P'))).
  exists (mkCM (mkCP (cp_C P') (cp_H P') (cp_W P') (cp_L P') (cp_leaf P') ls) par x st').
  assert (Ha: Forall2 (alike (V := V)) ls (cp_layers P)) by (apply loaded_all; exact Hl).
  split; [|split; [reflexivity|split; [|split]]].
  - unfold conv_load_state_dict. cbn [cm_net cm_par cm_x cm_st].
    rewrite no_unexpected_names.
    2:{ intros n Hi. unfold conv_state_dict in *. cbn [cm_net cm_par m] in *. rewrite map_app in *. rewrite <- (clays_names_eq _ 0 _ Hl).
        rewrite <- (par_names_eq [Nm "leaf_data"] _ _ Hp). exact Hi. }
    cbn [bind]. rewrite (load_par_in _ Hd _ par); [cbn [bind]|intros e He; unfold conv_state_dict; apply in_or_app; auto|exact Hp].
    rewrite (load_clays_in _ Hd (cp_layers P)); [reflexivity| |exact Hl]. intros e He. unfold conv_state_dict. apply in_or_app. auto.
  - unfold conv_state_dict. cbn [cm_net cm_par cp_layers m]. f_equal. apply loaded_entries. exact Hl.
  - intros data. unfold cmodule_forward, cnetwork. cbn [cm_net cm_par cm_x cm_st cp_C cp_H cp_W cp_L cp_layers m]. destruct (cls par x) as [lf|e]; [|reflexivity]. cbn [bind].
    rewrite <- E1, <- E2, <- E3, <- E4, (alike_net_forward _ _ _ _ _ _ _ _ _ Ha). apply C41_forward.
  - intros Hs Hs' val a. unfold cmodule_sample, cnetwork. cbn [cm_net cm_par cm_x cm_st cp_C cp_H cp_W cp_L cp_layers m]. destruct (cls par x) as [lf|e]; [|reflexivity].
    cbn. rewrite <- E1, <- E2, <- E3, <- E4. apply alike_net_sample; auto.
Qed.

(** Loading succeeds exactly when keys and shapes agree; then every entry is the saved one.  Any other file raises RuntimeError. *)
Theorem C90_strict (d : dict) (m : cmodule V X) : NoDup (map fst (cm_par m)) ->
  (forall r, conv_load_state_dict d m = Ok r -> cm_x r = cm_x m /\ cm_st r = cm_st m /\ forall n, find_key (conv_state_dict r) n = find_key d n) /\
  ((exists r, conv_load_state_dict d m = Ok r) <-> forall n, option_map sig (find_key d n) = option_map sig (find_key (conv_state_dict m) n)) /\
  (forall e, conv_load_state_dict d m = Err e -> e = RuntimeErr).
Proof.
  intros Hn. pose proof (cstate_nodup m Hn) as Hd.
  assert (Hmain: forall r, conv_load_state_dict d m = Ok r ->
    forall n, find_key (conv_state_dict r) n = find_key d n /\ option_map sig (find_key d n) = option_map sig (find_key (conv_state_dict m) n)).
  { intros r Hr n. destruct (cload_tracks d m r Hr) as (Hu & Ht). pose proof (tracks_names d _ _ Ht) as Hnm.
    destruct (find_key (conv_state_dict m) n) as [v|] eqn:Ef.
    - apply find_some in Ef. destruct (tracks_in d _ _ n v Ht Ef) as (v' & Hi & Hs & Hf). rewrite Hf.
      rewrite (find_in (conv_state_dict r) n v'); [cbn; rewrite Hs; auto|rewrite <- Hnm; exact Hd|exact Hi].
    - pose proof (no_unexpected_inv d _ Hu n) as Hx. apply find_none in Ef. assert (E1: find_key d n = None) by (apply find_none; auto).
      assert (E2: find_key (conv_state_dict r) n = None) by (apply find_none; rewrite <- Hnm; auto). rewrite E1, E2. auto. }
  split; [|split].
  - intros r Hr. split; [|split; [|intros n; apply (Hmain r Hr n)]]; unfold conv_load_state_dict in Hr;
      repeat (apply bind_ok in Hr as (? & _ & Hr)); injection Hr as <-; reflexivity.
  - split; [intros (r & Hr) n; apply (Hmain r Hr n)|]. intros H. apply cload_fits.
    + apply no_unexpected_names. intros n Hi. destruct (find_key (conv_state_dict m) n) as [v|] eqn:Ef.
      * apply find_some in Ef. apply (in_map fst) in Ef. exact Ef.
      * exfalso. specialize (H n). rewrite Ef in H. destruct (find_key d n) eqn:E; [discriminate|]. apply find_none in E. auto.
    + intros n v Hi. rewrite H, (find_in _ _ _ Hd Hi). reflexivity.
  - apply cload_err.
Qed.
End Theorems.

(** * What the shapes in a file tell *)
Definition logits_of (l : clayer) : option (tensor num) :=
  match l with CSumProd OOther _ _ _ => None | CSumProd _ s _ _ => Some (cs_logits s) | _ => None end.
Definition layer_key (j : nat) : name := [Nm "layers"; Ix j; Nm "sum_layer"; Nm "logits"].
Lemma clays_find ls : forall i j, find_key (clays_entries i ls) (layer_key (i + j)) =
  match nth_error ls j with Some l => option_map VNum (logits_of l) | None => None end.
Proof.
  induction ls as [|l ls IH]; intros i j; [destruct j; reflexivity|]. cbn [clays_entries]. destruct j as [|j].
  - cbn [nth_error]. rewrite Nat.add_0_r. assert (Hr: find_key (clays_entries (S i) ls) (layer_key i) = None).
    { apply find_none. intros Hi. apply clays_names in Hi as (j & Hj & [E|E]); [discriminate E|]. injection E as E. lia. }
    destruct l as [s|kh kw|[] s kh kw]; cbn [clay_entries csum_entries app logits_of option_map]; try exact Hr.
    + cbn [find_key]. destruct (name_dec (layer_key i) _) as [E|_]; [discriminate E|exact Hr].
    + cbn [find_key]. destruct (name_dec (layer_key i) _) as [E|E]; [reflexivity|]. contradict E. reflexivity.
    + cbn [find_key]. destruct (name_dec (layer_key i) _) as [E|E]; [reflexivity|]. contradict E. reflexivity.
  - cbn [nth_error]. rewrite <- (IH (S i) j). replace (i + S j) with (S i + j) by lia. apply find_app_none. apply find_none.
    intros Hi. apply clay_names in Hi as [E|E]; [discriminate E|]. injection E as E. lia.
Qed.
Lemma conv_find {V X} (m : cmodule V X) j : find_key (conv_state_dict m) (layer_key j) =
  match nth_error (cp_layers (cm_net m)) j with Some l => option_map VNum (logits_of l) | None => None end.
Proof.
  unfold conv_state_dict. rewrite find_app_none; [exact (clays_find _ 0 j)|]. apply find_none. intros Hi. apply par_names in Hi as (s & _ & E). discriminate E.
Qed.
(** Height or width of the input of layer [j] *)
Fixpoint level (k h j : nat) : nat := match j with O => h | S j => level k (h / k) j end.
Lemma bottom_nth {V} (o : coracle V) (So : shaped o) k chs : forall i h w ls, build_bottom o OSumProd k i chs h w = Ok ls ->
  List.length ls = List.length chs /\
  (forall j, S j < List.length chs -> option_map shape (match nth_error ls j with Some l => logits_of l | None => None end) =
    Some [nth (S j) chs 0; nth j chs 0; level k h j; level k w j]) /\
  (forall j, S j = List.length chs -> exists a b, option_map shape (match nth_error ls j with Some l => logits_of l | None => None end) = Some [1; nth j chs 0; a; b]).
Proof.
  induction chs as [|c [|c' r] IH]; intros i h w ls H; [discriminate H| |].
  - cbn [build_bottom] in H. apply bind_ok in H as (l & Hl & H). injection H as <-. unfold new_sumprod in Hl. apply bind_ok in Hl as (? & _ & Hl). injection Hl as <-.
    split; [reflexivity|]. split; [cbn; intros; lia|]. intros j Hj. cbn in Hj. replace j with 0 by lia. cbn. rewrite So. eexists. eexists. reflexivity.
  - change (build_bottom o OSumProd k i (c :: c' :: r) h w) with
      (l <- new_sumprod o i c c' h w k k OSumProd ;; ls <- build_bottom o OSumProd k (S i) (c' :: r) (h / k) (w / k) ;; Ok (l :: ls)) in H.
    apply bind_ok in H as (l & Hl & H). apply bind_ok in H as (r1 & Hr & H). injection H as <-. unfold new_sumprod in Hl. apply bind_ok in Hl as (? & _ & Hl). injection Hl as <-.
    destruct (IH _ _ _ _ Hr) as (L & A & B). split; [|split].
    + cbn [List.length] in *. lia.
    + intros j Hj. destruct j as [|j]; cbn [nth_error nth level].
      * cbn. rewrite So. reflexivity.
      * apply A. cbn [List.length] in *. lia.
    + intros j Hj. destruct j as [|j]; [cbn in Hj; lia|]. cbn [nth_error]. change (nth (S j) (c :: c' :: r) 0) with (nth j (c' :: r) 0). apply B. cbn [List.length] in *. lia.
Qed.

Section Identify.
Context {V X : Type}.
Lemma bottom_layers_of g C H W (o : coracle V) par (x : X) m : new_cmodule g C H W o par x = Ok m -> cc_struct g = CBottomUp -> cc_order g = OSumProd ->
  build_bottom o OSumProd (cc_kernel g) 0 (cc_channels g) H W = Ok (cp_layers (cm_net m)) /\ cm_par m = par.
Proof.
  intros Hm Hs Ho. unfold new_cmodule in Hm. apply bind_ok in Hm as (P & HP & Hm). injection Hm as <-. cbn [cm_net cm_par]. split; [|reflexivity].
  unfold build_convpc in HP. destruct (cc_channels g); [discriminate|]. apply bind_ok in HP as (lf & _ & HP). apply bind_ok in HP as (ls & Hls & HP).
  injection HP as <-. rewrite Hs, Ho in Hls. exact Hls.
Qed.
(** A file of a bottom-up model of order sum-prod is refused by every such model of other channels, of another image
    size (two channels or more) or of another kernel size (three channels or more; with two the kernel is without effect). *)
Theorem C90_identifies g g' C H W C' H' W' (o o' : coracle V) par par' (x x' : X) m m' r :
  shaped o -> shaped o' -> cc_struct g = CBottomUp -> cc_order g = OSumProd -> cc_struct g' = CBottomUp -> cc_order g' = OSumProd ->
  new_cmodule g C H W o par x = Ok m -> new_cmodule g' C' H' W' o' par' x' = Ok m' -> NoDup (map fst par') ->
  conv_load_state_dict (conv_state_dict m) m' = Ok r ->
  cc_channels g = cc_channels g' /\
  (2 <= List.length (cc_channels g) -> H = H' /\ W = W') /\
  (3 <= List.length (cc_channels g) -> 0 < H -> Nat.divide (cc_kernel g) H -> Nat.divide (cc_kernel g') H' -> cc_kernel g = cc_kernel g').
Proof.
  intros So So' Hs Ho Hs' Ho' Hm Hm' Hn Hr.
  destruct (bottom_layers_of g C H W o par x m Hm Hs Ho) as (Hb & _). destruct (bottom_layers_of g' C' H' W' o' par' x' m' Hm' Hs' Ho') as (Hb' & Hp).
  destruct (bottom_nth o So _ _ _ _ _ _ Hb) as (L & A & B). destruct (bottom_nth o' So' _ _ _ _ _ _ Hb') as (L' & A' & B').
  rewrite <- Hp in Hn. destruct (C90_strict (conv_state_dict m) m' Hn) as (_ & (T & _) & _). specialize (T (ex_intro _ r Hr)).
  assert (E: forall j, option_map shape (match nth_error (cp_layers (cm_net m)) j with Some l => logits_of l | None => None end) =
                       option_map shape (match nth_error (cp_layers (cm_net m')) j with Some l => logits_of l | None => None end)).
  { intros j. specialize (T (layer_key j)). rewrite !conv_find in T.
    destruct (nth_error _ j) as [l|]; destruct (nth_error _ j) as [l'|]; cbn in T; try destruct (logits_of l); try destruct (logits_of l'); cbn in T |- *; try discriminate T; try reflexivity.
    injection T as ->. reflexivity. }
  assert (F: forall j, j < List.length (cc_channels g) -> exists p a b, option_map shape (match nth_error (cp_layers (cm_net m)) j with Some l => logits_of l | None => None end) = Some [p; nth j (cc_channels g) 0; a; b]).
  { intros j Hj. destruct (Nat.eq_dec (S j) (List.length (cc_channels g))) as [Ej|Ej].
    - destruct (B j Ej) as (a & b & Eb). exists 1, a, b. auto.
    - exists (nth (S j) (cc_channels g) 0), (level (cc_kernel g) H j), (level (cc_kernel g) W j). apply A. lia. }
  assert (F': forall j, j < List.length (cc_channels g') -> exists p a b, option_map shape (match nth_error (cp_layers (cm_net m')) j with Some l => logits_of l | None => None end) = Some [p; nth j (cc_channels g') 0; a; b]).
  { intros j Hj. destruct (Nat.eq_dec (S j) (List.length (cc_channels g'))) as [Ej|Ej].
    - destruct (B' j Ej) as (a & b & Eb). exists 1, a, b. auto.
    - exists (nth (S j) (cc_channels g') 0), (level (cc_kernel g') H' j), (level (cc_kernel g') W' j). apply A'. lia. }
  assert (Hlen: List.length (cc_channels g) = List.length (cc_channels g')).
  { destruct (lt_eq_lt_dec (List.length (cc_channels g)) (List.length (cc_channels g'))) as [[Hl|Hl]|Hl]; [|exact Hl|]; exfalso.
    - destruct (F' _ Hl) as (p & a & b & E1). rewrite <- E in E1. rewrite (proj2 (nth_error_None _ _)) in E1 by lia. discriminate E1.
    - destruct (F _ Hl) as (p & a & b & E1). rewrite E in E1. rewrite (proj2 (nth_error_None _ _)) in E1 by lia. discriminate E1. }
  split; [|split].
  - apply (nth_ext _ _ 0 0 Hlen). intros j Hj. destruct (F j Hj) as (p & a & b & E1). destruct (F' j ltac:(lia)) as (p' & a' & b' & E2).
    rewrite <- E, E1 in E2. injection E2 as _ E2 _ _. exact E2.
  - intros H2. pose proof (A 0 ltac:(lia)) as E1. pose proof (A' 0 ltac:(lia)) as E2. rewrite <- E, E1 in E2. injection E2 as _ _ E2 E3. auto.
  - intros H3 Hpos (q & Hq) (q' & Hq'). pose proof (A 0 ltac:(lia)) as E1. pose proof (A' 0 ltac:(lia)) as E2. rewrite <- E, E1 in E2. injection E2 as _ _ E2 _. cbn [level] in E2.
    pose proof (A 1 ltac:(lia)) as E3. pose proof (A' 1 ltac:(lia)) as E4. rewrite <- E, E3 in E4. injection E4 as _ _ E4 _. cbn [level] in E4. rewrite <- E2 in Hq', E4.
    assert (cc_kernel g <> 0 /\ cc_kernel g' <> 0) as (K & K') by (split; intros Z; rewrite Z in *; lia).
    assert (Z1: H / cc_kernel g = q) by (rewrite Hq; apply Nat.div_mul; exact K). assert (Z2: H / cc_kernel g' = q') by (rewrite Hq'; apply Nat.div_mul; exact K').
    assert (q = q') by congruence. nia.
Qed.

(** Refuted for top-down models, whose layers do not depend on the image size: a file of a model for H x W pixels is loaded
    without an error by a model for W x H pixels ([same_class]: both leaves have W * H features, so equal shapes). *)
Theorem C90_transposed_refuted g C H W (o o' : coracle V) par par' (x : X) m m' :
  cc_struct g = CTopDown -> shaped o -> shaped o' -> same_class par par' ->
  new_cmodule g C H W o par x = Ok m -> new_cmodule g C W H o' par' x = Ok m' ->
  exists r, conv_load_state_dict (conv_state_dict m) m' = Ok r /\ (forall n, find_key (conv_state_dict r) n = find_key (conv_state_dict m) n) /\
    cp_H (cm_net r) = W /\ cp_W (cm_net r) = H.
Proof.
  intros Hs So So' (Hn & Hp) Hm Hm'. unfold new_cmodule in Hm, Hm'. apply bind_ok in Hm as (P & HP & Hm). apply bind_ok in Hm' as (P' & HP' & Hm').
  injection Hm as <-. injection Hm' as <-.
  assert (HL: exists a b a' b' acc acc', cp_layers P = CProd a b :: acc /\ cp_layers P' = CProd a' b' :: acc' /\ Forall2 like_clay acc acc' /\ cp_H P' = W /\ cp_W P' = H).
  { unfold build_convpc in HP, HP'. destruct (cc_channels g) as [|c0 rest] eqn:Ec; [discriminate|].
    apply bind_ok in HP as (lf & _ & HP). apply bind_ok in HP as (ls & Hls & HP). injection HP as <-.
    apply bind_ok in HP' as (lf' & _ & HP'). apply bind_ok in HP' as (ls' & Hls' & HP'). injection HP' as <-. rewrite Hs in Hls, Hls'.
    apply bind_ok in Hls as (((acc & h) & w) & Ht & Hls). injection Hls as <-. apply bind_ok in Hls' as (((acc' & h') & w') & Ht' & Hls'). injection Hls' as <-.
    assert (H0: Forall2 like_clay [CSum (new_csum o 0 (last (c0 :: rest) 0) 1 1 1)] [CSum (new_csum o' 0 (last (c0 :: rest) 0) 1 1 1)])
      by (constructor; [exact (new_csum_like o o' So So' 0 _ 1 1 1)|constructor]).
    destruct (top_clike o o' So So' _ _ _ _ _ _ _ _ _ _ H0 Ht Ht') as (Ha & _). cbn [fst] in Ha. cbn [cp_layers cp_H cp_W]. do 6 eexists. repeat split; try reflexivity. exact Ha. }
  destruct HL as (a & b & a' & b' & acc & acc' & E & E' & Ha & EH & EW).
  set (m := mkCM P par x (fresh_state P)). set (m' := mkCM P' par' x (fresh_state P')).
  assert (Hd: NoDup (map fst (conv_state_dict m))) by (apply cstate_nodup; exact Hn).
  assert (Hload: conv_load_state_dict (conv_state_dict m) m' =
    Ok (mkCM (mkCP (cp_C P') (cp_H P') (cp_W P') (cp_L P') (cp_leaf P') (CProd a' b' :: map (fun p => loaded (fst p) (snd p)) (combine acc acc'))) par x (fresh_state P'))).
  { unfold conv_load_state_dict. cbn [cm_net cm_par cm_x cm_st m']. rewrite no_unexpected_names.
    2:{ intros n Hi. unfold conv_state_dict in *. cbn [cm_net cm_par m m'] in *. rewrite map_app in *. rewrite E in Hi. rewrite E'. cbn [clays_entries clay_entries app] in *.
        rewrite <- (clays_names_eq _ 1 _ Ha). rewrite <- (par_names_eq [Nm "leaf_data"] _ _ Hp). exact Hi. }
    cbn [bind]. rewrite (load_par_in _ Hd _ par); [cbn [bind]|intros e He; unfold conv_state_dict; apply in_or_app; auto|exact Hp].
    rewrite E'. cbn [load_clays load_clay bind]. rewrite (load_clays_in _ Hd acc); [reflexivity| |exact Ha].
    intros e He. unfold conv_state_dict. apply in_or_app. right. cbn [cm_net m]. rewrite E. exact He. }
  eexists. split; [exact Hload|]. split; [|split; [exact EH|exact EW]]. intros n.
  assert (Hn': NoDup (map fst (cm_par m'))).
  { cbn [cm_par m']. replace (map fst par') with (map fst par); [exact Hn|]. clear -Hp. revert par' Hp. induction par as [|y par IH]; intros [|y' par'] Hp; try discriminate Hp; [reflexivity|].
    cbn [map] in *. injection Hp as E1 E2 E3. f_equal; auto. }
  destruct (C90_strict (conv_state_dict m) m' Hn') as (T & _). apply (T _ Hload).
Qed.
End Identify.

(** Refuted while caches are on: the failed evidence call of C41 changes the samples of the model, not those of its copy. *)
Theorem C90_caches_refuted : exists g C H W (o : coracle nat) P (cls : leaf_class nat unit) m calls r,
  conv_accepted g C H W o P /\ conv_fits g H W /\ new_cmodule g C H W o [] tt = Ok m /\ cnetwork cls m = Ok P /\
  let used := cached m (after P INR (cm_st m) calls) in
  conv_load_state_dict (conv_state_dict used) m = Ok r /\
  Pr 2 (cp_leaf P) (cmodule_sample cls INR r (free 1 1)) (images_are 1 C H W zero_image) = (5 / 10)%R /\
  Pr 2 (cp_leaf P) (cmodule_sample cls INR used (free 1 1)) (images_are 1 C H W zero_image) = (82 / 100)%R.
Proof.
  destruct C41_contaminated_refuted as (g & C & H & W & o & P & a & e & x & HA & HF & HD & Hc & He & _ & _ & HB & HN).
  pose proof (cac_build _ _ _ _ _ _ HA) as HP. set (m := mkCM (X := unit) P [] tt (fresh_state P)).
  assert (Hm: new_cmodule g C H W o [] tt = Ok m) by (unfold new_cmodule; rewrite HP; reflexivity).
  set (st := after P INR (fresh_state P) [CallSample a; CallForward x]) in *.
  assert (So: shaped o) by (intros i sh; apply (cor_logits _ (cac_oracle _ _ _ _ _ _ HA))).
  destruct (C90_restored_partial (fun _ _ => Ok (cp_leaf P)) g C H W o o [] [] tt m m st (fresh_state P) So So) as (r & Hr & Hst & _ & _ & _).
  { split; [constructor|reflexivity]. }
  { exact Hm. }
  { exact Hm. }
  destruct (C90_restored_partial (fun _ _ => Ok (cp_leaf P)) g C H W o o [] [] tt m m (fresh_state P) (fresh_state P) So So) as (r2 & Hr2 & _ & _ & _ & Hs).
  { split; [constructor|reflexivity]. }
  { exact Hm. }
  { exact Hm. }
  assert (r2 = r) as ->.
  { change (conv_state_dict (cached m (fresh_state P))) with (conv_state_dict (cached m st)) in Hr2. congruence. }
  assert (HN0: cnetwork (fun (_ : list (string * tensor num)) (_ : unit) => Ok (cp_leaf P)) m = Ok P) by (unfold cnetwork; cbn; destruct P; reflexivity).
  exists g, C, H, W, o, P, (fun _ _ => Ok (cp_leaf P)), m, [CallSample a; CallForward x], r.
  split; [exact HA|]. split; [exact HF|]. split; [exact Hm|]. split; [exact HN0|]. cbv zeta. cbn [cm_st m]. fold st. split; [exact Hr|]. split.
  - rewrite Hs by reflexivity. unfold cmodule_sample. change (cnetwork (fun _ _ => Ok (cp_leaf P)) (cached m (fresh_state P))) with (cnetwork (fun _ _ => Ok (cp_leaf P)) m). rewrite HN0. exact HB.
  - unfold cmodule_sample. change (cnetwork (fun _ _ => Ok (cp_leaf P)) (cached m st)) with (cnetwork (fun _ _ => Ok (cp_leaf P)) m). rewrite HN0. exact HN.
Qed.

(** * Examples: coins whose parameter is the leaf's one parameter; the saved model has other weights than the loading one *)
Definition csave_oracle (w : R) : coracle nat := mkCO (co_leaf (cex_oracle half)) (fun i s => mkT s (fun idx => Fin (w * INR (i + nth 1 idx 0)))).
Definition csave_par (F C L : nat) (p : R) : list (string * tensor num) := [("probs", mkT [1; C; F; L; 1] (fun _ => Fin p))].
Definition csave_class (F C L : nat) : leaf_class nat unit :=
  fun par _ => match par with
    | [(_, t)] => Ok (coin (fun key => toR (get t key)) F C L 1)
    | _ => Err RuntimeErr
    end.
Lemma csave_shaped w : shaped (csave_oracle w). Proof. intros i sh. reflexivity. Qed.
Lemma csave_same F C L p q : same_class (csave_par F C L p) (csave_par F C L q).
Proof. split; [repeat constructor; auto|reflexivity]. Qed.
Example C90_ex : exists m m' r, new_cmodule cex_bottom 3 4 8 (csave_oracle 1) (csave_par 32 3 2 (1 / 3)) tt = Ok m /\
  new_cmodule cex_bottom 3 4 8 (csave_oracle 2) (csave_par 32 3 2 (1 / 2)) tt = Ok m' /\
  map fst (conv_state_dict m) = [[Nm "leaf_data"; Nm "probs"]; layer_key 0; layer_key 1; layer_key 2] /\
  conv_load_state_dict (conv_state_dict m) m' = Ok r /\
  forall val a, cmodule_sample (csave_class 32 3 2) val r a = cmodule_sample (csave_class 32 3 2) val m a.
Proof.
  destruct (new_cmodule cex_bottom 3 4 8 (csave_oracle 1) (csave_par 32 3 2 (1 / 3)) tt) as [m|] eqn:Em; [|discriminate Em].
  destruct (new_cmodule cex_bottom 3 4 8 (csave_oracle 2) (csave_par 32 3 2 (1 / 2)) tt) as [m'|] eqn:Em'; [|discriminate Em'].
  destruct (C90_restored_partial (csave_class 32 3 2) _ _ _ _ _ _ _ _ _ m m' (cm_st m) (cm_st m') (csave_shaped 1) (csave_shaped 2) (csave_same 32 3 2 _ _) Em Em') as (r & Hr & _ & _ & _ & Hs).
  exists m, m', r. split; [reflexivity|]. split; [reflexivity|]. split; [injection Em as <-; reflexivity|].
  assert (Hc: cached m (cm_st m) = m) by (destruct m; reflexivity). assert (Hc': cached m' (cm_st m') = m') by (destruct m'; reflexivity). rewrite Hc in *. rewrite Hc' in Hr.
  split; [exact Hr|]. apply Hs; [injection Em as <-|injection Em' as <-]; reflexivity.
Qed.
(** Another kernel size: refused *)
Example C90_identifies_ex : exists m m', new_cmodule cex_bottom 3 4 8 (csave_oracle 1) (csave_par 32 3 2 (1 / 3)) tt = Ok m /\
  new_cmodule (mkCC [2; 3; 2] 1 CBottomUp OSumProd) 3 4 8 (csave_oracle 2) (csave_par 32 3 2 (1 / 2)) tt = Ok m' /\
  conv_load_state_dict (conv_state_dict m) m' = Err RuntimeErr.
Proof.
  destruct (new_cmodule cex_bottom 3 4 8 (csave_oracle 1) (csave_par 32 3 2 (1 / 3)) tt) as [m|] eqn:Em; [|discriminate Em].
  destruct (new_cmodule (mkCC [2; 3; 2] 1 CBottomUp OSumProd) 3 4 8 (csave_oracle 2) (csave_par 32 3 2 (1 / 2)) tt) as [m'|] eqn:Em'; [|discriminate Em'].
  exists m, m'. split; [reflexivity|]. split; [reflexivity|].
  assert (Hn: NoDup (map fst (cm_par m'))) by (injection Em' as <-; repeat constructor; auto).
  destruct (conv_load_state_dict (conv_state_dict m) m') as [r|e] eqn:Er; [|f_equal; eapply C90_strict; eauto].
  exfalso. destruct (C90_identifies cex_bottom (mkCC [2; 3; 2] 1 CBottomUp OSumProd) _ _ _ _ _ _ _ _ _ _ _ _ m m' r (csave_shaped 1) (csave_shaped 2) eq_refl eq_refl eq_refl eq_refl Em Em' (proj1 (csave_same 32 3 2 (1 / 2) 0)) Er) as (_ & _ & K).
  assert (2 = 1); [|discriminate]. apply K; cbn; [lia|lia|exists 2; reflexivity|exists 4; reflexivity].
Qed.
(** 4 x 8 pixels into 8 x 4 pixels: accepted *)
Example C90_transposed_ex : exists m m' r, new_cmodule cex_top 1 4 8 (csave_oracle 1) (csave_par 32 1 2 (1 / 3)) tt = Ok m /\
  new_cmodule cex_top 1 8 4 (csave_oracle 2) (csave_par 32 1 2 (1 / 2)) tt = Ok m' /\
  conv_load_state_dict (conv_state_dict m) m' = Ok r /\ cp_H (cm_net m) = 4 /\ cp_H (cm_net r) = 8.
Proof.
  destruct (new_cmodule cex_top 1 4 8 (csave_oracle 1) (csave_par 32 1 2 (1 / 3)) tt) as [m|] eqn:Em; [|discriminate Em].
  destruct (new_cmodule cex_top 1 8 4 (csave_oracle 2) (csave_par 32 1 2 (1 / 2)) tt) as [m'|] eqn:Em'; [|discriminate Em'].
  destruct (C90_transposed_refuted cex_top 1 4 8 _ _ _ _ tt m m' eq_refl (csave_shaped 1) (csave_shaped 2) (csave_same 32 1 2 _ _) Em Em') as (r & Hr & _ & HH & _).
  exists m, m', r. split; [reflexivity|]. split; [reflexivity|]. split; [exact Hr|]. split; [injection Em as <-; reflexivity|exact HH].
Qed.

Print Assumptions C90_restored_partial.
Print Assumptions C90_strict.
Print Assumptions C90_identifies.
Print Assumptions C90_transposed_refuted.
Print Assumptions C90_caches_refuted.
