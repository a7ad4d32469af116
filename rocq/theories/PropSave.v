(** C70: a model is restored by loading its state dict into a model of the same configuration. *)
From Coq Require Import List Arith Lia Bool ZArith Reals String Lra.
Import ListNotations.
From Verif Require Import Base RSum Num Tensor Prob Layers Circuit Net RefFwd Leaf Perm RefLeaf TypeChecks Einet RefNet RefEinet RefEinetS RefScopes
  Build RefBuild Spec Ex Mixture Cluster Piecewise PieceLeaf Save PropForward PropPieceNet.
Local Open Scope string_scope.
Local Open Scope list_scope.
Local Open Scope nat_scope.

(** * Names *)
Lemma find_in (d : dict) n v : NoDup (map fst d) -> In (n, v) d -> find_key d n = Some v.
Proof.
  induction d as [|[n' v'] d IH]; intros H Hi; [destruct Hi|]. cbn [map fst] in H. apply NoDup_cons_iff in H as (H1 & H2).
  cbn [find_key]. destruct (name_dec n n') as [->|Hn].
  - destruct Hi as [E|Hi]; [congruence|]. exfalso. apply H1. apply (in_map fst) in Hi. exact Hi.
  - destruct Hi as [E|Hi]; [congruence|]. auto.
Qed.
Lemma find_some (d : dict) n v : find_key d n = Some v -> In (n, v) d.
Proof.
  induction d as [|[n' v'] d IH]; cbn [find_key]; [discriminate|]. destruct (name_dec n n') as [->|Hn]; intros H.
  - left. congruence.
  - right. auto.
Qed.
Lemma find_none (d : dict) n : find_key d n = None <-> ~ In n (map fst d).
Proof.
  induction d as [|[n' v'] d IH]; cbn [find_key map fst In]; [tauto|]. destruct (name_dec n n') as [->|Hn].
  - split; [discriminate|]. intros H. exfalso. auto.
  - rewrite IH. split; [intros H [E|E]; [congruence|auto]|auto].
Qed.
Lemma nodup_app {A} (a b : list A) : NoDup a -> NoDup b -> (forall x, In x a -> In x b -> False) -> NoDup (a ++ b).
Proof.
  induction a as [|x a IH]; intros Ha Hb H; [exact Hb|]. apply NoDup_cons_iff in Ha as (H1 & H2). cbn. constructor.
  - intros Hi. apply in_app_or in Hi as [Hi|Hi]; [auto|]. apply (H x); [left; auto|auto].
  - apply IH; auto. intros y Hy Hy'. apply (H y); [right; auto|auto].
Qed.

Section Names.
Context {V X : Type}.

Lemma par_names p par n : In n (map fst (par_entries p par)) -> exists s, In s (map fst par) /\ n = p ++ [Nm s].
Proof.
  unfold par_entries. rewrite map_map. intros H. apply in_map_iff in H as ((s & t) & <- & Hi). exists s. split; auto.
  apply (in_map fst) in Hi. exact Hi.
Qed.
Lemma layers_names i ls n : In n (map fst (layers_entries i ls)) -> exists j, i <= j /\ n = [Nm "layers"; Ix j; Nm "logits"].
Proof.
  revert i. induction ls as [|l ls IH]; intros i H; [destruct H|]. cbn [layers_entries] in H. rewrite map_app in H. apply in_app_or in H as [H|H].
  - exists i. split; [lia|]. destruct l; cbn in H; [destruct H as [<-|[]]; reflexivity..|destruct H].
  - apply IH in H as (j & Hj & ->). exists j. split; [lia|reflexivity].
Qed.
Lemma layers_nodup i ls : NoDup (map fst (layers_entries i ls)).
Proof.
  revert i. induction ls as [|l ls IH]; intros i; [constructor|]. cbn [layers_entries]. rewrite map_app. apply nodup_app; auto.
  - destruct l; cbn; constructor; auto; constructor.
  - intros n H H'. apply layers_names in H' as (j & Hj & ->). destruct l; cbn in H; try contradiction; destruct H as [H|[]]; injection H as H; lia.
Qed.
Lemma state_nodup (m : module V X) : NoDup (map fst (md_par m)) -> NoDup (map fst (state_dict m)).
Proof.
  intros Hp. unfold state_dict. rewrite !map_app.
  assert (Hpar: NoDup (map fst (par_entries (leaf_prefix (e_leaf (md_net m))) (md_par m)))).
  { unfold par_entries. rewrite map_map. cbn [fst]. revert Hp. generalize (md_par m). generalize (leaf_prefix (e_leaf (md_net m))).
    intros p par. induction par as [|(s & t) par IH]; intros H; [constructor|]. cbn [map fst] in *. apply NoDup_cons_iff in H as (H1 & H2).
    constructor; auto. intros Hi. apply in_map_iff in Hi as ((s' & t') & E & Hi). apply app_inj_tail in E as (_ & E). cbn [fst] in E.
    injection E as ->. apply H1. apply (in_map fst) in Hi. exact Hi. }
  assert (Hrt: NoDup (map fst (slay_entries [Nm "_class_sampling_root"] (e_root (md_net m))))).
  { destruct (e_root _); cbn; repeat constructor; auto. }
  assert (Hmx: NoDup (map fst (slay_entries [Nm "mixing"] (e_mixing (md_net m))))).
  { destruct (e_mixing _); cbn; repeat constructor; auto. }
  assert (Hpm: NoDup (map fst (perm_entries (md_net m)))).
  { unfold perm_entries. destruct (e_perm _) as [(p & q)|]; cbn; repeat constructor; cbn; auto. intros [H|[]]. discriminate H. }
  assert (Hlf: NoDup (map fst (leaf_entries (e_leaf (md_net m))))).
  { unfold leaf_entries. destruct (e_leaf _); cbn; repeat constructor; cbn; auto. intros [H|[]]. discriminate H. }
  assert (Drt: forall n, In n (map fst (slay_entries [Nm "_class_sampling_root"] (e_root (md_net m)))) -> hd_error n = Some (Nm "_class_sampling_root")).
  { intros n. destruct (e_root _); cbn; [intros [<-|[]]; reflexivity|intros []]. }
  assert (Dmx: forall n, In n (map fst (slay_entries [Nm "mixing"] (e_mixing (md_net m)))) -> hd_error n = Some (Nm "mixing")).
  { intros n. destruct (e_mixing _); cbn; [intros [<-|[]]; reflexivity|intros []]. }
  assert (Dpm: forall n, In n (map fst (perm_entries (md_net m))) -> hd_error n = Some (Nm "permutation") \/ hd_error n = Some (Nm "permutation_inv")).
  { intros n. unfold perm_entries. destruct (e_perm _) as [(p & q)|]; cbn; [intros [<-|[<-|[]]]; auto|intros []]. }
  assert (Dls: forall n, In n (map fst (layers_entries 0 (e_layers (md_net m)))) -> hd_error n = Some (Nm "layers")).
  { intros n H. apply layers_names in H as (j & _ & ->). reflexivity. }
  assert (Dlf: forall n, In n (map fst (leaf_entries (e_leaf (md_net m)))) -> hd_error n = Some (Nm "leaf") /\ List.length n = 2 /\ (forall lf, e_leaf (md_net m) <> LBase lf)).
  { intros n. unfold leaf_entries. destruct (e_leaf _); cbn; [intros [<-|[]]|intros [<-|[<-|[]]]|intros []]; repeat split; discriminate. }
  assert (Dpar: forall n, In n (map fst (par_entries (leaf_prefix (e_leaf (md_net m))) (md_par m))) -> hd_error n = Some (Nm "leaf") /\
    ((exists lf, e_leaf (md_net m) = LBase lf) \/ List.length n = 3)).
  { intros n H. apply par_names in H as (s & _ & ->). destruct (e_leaf (md_net m)) eqn:E; cbn; split; eauto. }
  apply nodup_app; [exact Hpar| |].
  { apply nodup_app; [exact Hlf| |].
    { apply nodup_app; [apply layers_nodup| |].
      { apply nodup_app; [exact Hpm| |].
        { apply nodup_app; auto. intros n H H'. apply Dmx in H. apply Drt in H'. congruence. }
        intros n H H'. apply Dpm in H. apply in_app_or in H' as [H'|H']; [apply Dmx in H'|apply Drt in H']; destruct H; congruence. }
      intros n H H'. apply Dls in H. apply in_app_or in H' as [H'|H']; [apply Dpm in H'; destruct H'; congruence|].
      apply in_app_or in H' as [H'|H']; [apply Dmx in H'|apply Drt in H']; congruence. }
    intros n H H'. apply Dlf in H as (H & _). apply in_app_or in H' as [H'|H']; [apply Dls in H'; congruence|].
    apply in_app_or in H' as [H'|H']; [apply Dpm in H'; destruct H'; congruence|].
    apply in_app_or in H' as [H'|H']; [apply Dmx in H'|apply Drt in H']; congruence. }
  intros n H H'. apply Dpar in H as (H & Hs). apply in_app_or in H' as [H'|H'].
  { apply Dlf in H' as (_ & Hl & Hb). destruct Hs as [(lf & Hs)|Hs]; [exact (Hb lf Hs)|lia]. }
  apply in_app_or in H' as [H'|H']; [apply Dls in H'; congruence|].
  apply in_app_or in H' as [H'|H']; [apply Dpm in H'; destruct H'; congruence|].
  apply in_app_or in H' as [H'|H']; [apply Dmx in H'|apply Drt in H']; congruence.
Qed.
End Names.

(** * Models of the same configuration *)
Definition like_slay (a b : slay) : Prop :=
  nf a = nf b /\ sin a = sin b /\ sout a = sout b /\ nrep a = nrep b /\ shape (logits a) = shape (logits b).
Definition like_layer (a b : layer) : Prop :=
  match a, b with
  | LEin L, LEin L' | LLin L, LLin L' | LLin2 L, LLin2 L' | LSum L, LSum L' => like_slay L L'
  | LRoot D, LRoot D' => D = D'
  | _, _ => False
  end.
Definition like_opt (a b : option slay) : Prop :=
  match a, b with Some L, Some L' => like_slay L L' | None, None => True | _, _ => False end.
Section Like.
Context {V X : Type}.
Definition like_leaf (a b : leaf_layer V) : Prop :=
  match a, b with
  | LFact _ Fo sc, LFact _ Fo' sc' => Fo = Fo' /\ shape sc = shape sc'
  | LSimple _ Fo p q, LSimple _ Fo' p' q' => Fo = Fo' /\ List.length p = List.length p' /\ List.length q = List.length q'
  | LBase _, LBase _ => True
  | _, _ => False
  end.
Record like (a b : einet V) : Prop := {
  lk_F : e_F a = e_F b; lk_C : e_C a = e_C b; lk_L : e_L a = e_L b; lk_R : e_R a = e_R b; lk_K : e_K a = e_K b;
  lk_leaf : like_leaf (e_leaf a) (e_leaf b);
  lk_perm : match e_perm a, e_perm b with Some _, Some _ | None, None => True | _, _ => False end;
  lk_layers : Forall2 like_layer (e_layers a) (e_layers b);
  lk_mixing : like_opt (e_mixing a) (e_mixing b);
  lk_root : like_opt (e_root a) (e_root b) }.

Lemma new_layer_like ws lg lg' nf0 sin0 sout0 nrep0 drop L L' :
  (forall a b c d t t', ws (mkL a b c d t) = ws (mkL a b c d t')) ->
  new_layer ws lg nf0 sin0 sout0 nrep0 drop = Ok L -> new_layer ws lg' nf0 sin0 sout0 nrep0 drop = Ok L' -> like_slay L L'.
Proof.
  intros Hw H H'. unfold new_layer in H, H'.
  repeat match type of H with bind ?m _ = Ok _ => destruct m; cbn [bind] in H, H'; [|discriminate H] end.
  injection H as <-. injection H' as <-. repeat split; cbn; auto.
Qed.
Lemma new_intermediate_like t lg lg' nf0 sin0 sout0 nrep0 drop l l' :
  new_intermediate t lg nf0 sin0 sout0 nrep0 drop = Ok l -> new_intermediate t lg' nf0 sin0 sout0 nrep0 drop = Ok l' -> like_layer l l'.
Proof.
  intros H H'. destruct t; cbn [new_intermediate] in H, H'; try discriminate H;
    apply bind_ok in H as (L & H & E); apply bind_ok in H' as (L' & H' & E'); injection E as <-; injection E' as <-; cbn [like_layer];
    refine (new_layer_like _ _ _ _ _ _ _ _ _ _ _ H H'); intros; reflexivity.
Qed.
Lemma like_nf l l' : like_layer l l' -> layer_nf l = layer_nf l'.
Proof. destruct l, l'; cbn; try tauto; unfold like_slay; tauto. Qed.
Lemma like_nfo l l' : like_layer l l' -> layer_nfo l = layer_nfo l'.
Proof.
  destruct l, l'; cbn; try tauto; unfold like_slay, einsum_features_out, linsum_features_out; intros H; destruct H as (-> & _); reflexivity.
Qed.
Lemma mixing_like g (o o' : oracle V) m m' : build_mixing g o = Ok m -> build_mixing g o' = Ok m' -> like_opt m m'.
Proof.
  unfold build_mixing. destruct (1 <? _); intros H H'.
  - apply bind_ok in H as (L & H & E). apply bind_ok in H' as (L' & H' & E'). injection E as <-. injection E' as <-. cbn.
    refine (new_layer_like _ _ _ _ _ _ _ _ _ _ _ H H'); intros; reflexivity.
  - injection H as <-. injection H' as <-. exact I.
Qed.
Lemma root_like g (o o' : oracle V) m m' : build_root g o = Ok m -> build_root g o' = Ok m' -> like_opt m m'.
Proof.
  unfold build_root. destruct (1 <? _); intros H H'.
  - apply bind_ok in H as (L & H & E). apply bind_ok in H' as (L' & H' & E'). injection E as <-. injection E' as <-. cbn.
    refine (new_layer_like _ _ _ _ _ _ _ _ _ _ _ H H'); intros; reflexivity.
  - injection H as <-. injection H' as <-. exact I.
Qed.
Lemma argsort_length l : List.length (argsort l) = List.length l.
Proof. unfold argsort. rewrite map_length, seq_length. reflexivity. Qed.
Lemma mapM_like {A B} (P : B -> B -> Prop) (f f' : A -> res B) l b b' : (forall x y y', f x = Ok y -> f' x = Ok y' -> P y y') ->
  mapM f l = Ok b -> mapM f' l = Ok b' -> Forall2 P b b'.
Proof.
  intros Hf. revert b b'. induction l as [|x l IH]; intros b b' H H'; cbn [mapM] in H, H'.
  - injection H as <-. injection H' as <-. constructor.
  - apply bind_ok in H as (y & Hy & H). apply bind_ok in H as (r & Hr & H). injection H as <-.
    apply bind_ok in H' as (y' & Hy' & H'). apply bind_ok in H' as (r' & Hr' & H'). injection H' as <-. constructor; eauto.
Qed.
Lemma bottom_like g (o o' : oracle V) k : forall i n ls ls', bottom_layers g o k i n = Ok ls -> bottom_layers g o' k i n = Ok ls' -> Forall2 like_layer ls ls'.
Proof.
  induction k as [|k IH]; intros i n ls ls' H H'; cbn [bottom_layers] in H, H'.
  - injection H as <-. injection H' as <-. constructor.
  - apply bind_ok in H as (l & Hl & H). apply bind_ok in H as (r & Hr & H). injection H as <-.
    apply bind_ok in H' as (l' & Hl' & H'). apply bind_ok in H' as (r' & Hr' & H'). injection H' as <-.
    assert (Hll: like_layer l l') by exact (new_intermediate_like _ _ _ _ _ _ _ _ _ _ Hl Hl').
    constructor; auto. rewrite <- (like_nfo _ _ Hll) in Hr'. eapply IH; eauto.
Qed.
Lemma forall2_rev {A} (P : A -> A -> Prop) a b : Forall2 P a b -> Forall2 P (rev a) (rev b).
Proof. induction 1; cbn; [constructor|]. apply Forall2_app; auto. Qed.

Lemma build_like g (o o' : oracle V) E E' : List.length (o_perm o 0) = List.length (o_perm o' 0) ->
  build g o = Ok E -> build g o' = Ok E' -> like E E'.
Proof.
  intros Hp H H'. unfold build in H, H'. apply bind_ok in H as (_ & _ & H). apply bind_ok in H' as (_ & _ & H').
  destruct (g_struct g); [| |discriminate].
  - unfold build_top_down in H, H'.
    apply bind_ok in H as (ls & Hls & H). apply bind_ok in H as (ls1 & Hls1 & H). apply bind_ok in H as (l & Hl & H).
    apply bind_ok in H as (lf & Hlf & H). apply bind_ok in H as (m & Hm & H). apply bind_ok in H as (r & Hr & H). injection H as <-.
    apply bind_ok in H' as (ls' & Hls' & H'). apply bind_ok in H' as (ls1' & Hls1' & H'). apply bind_ok in H' as (l' & Hl' & H').
    apply bind_ok in H' as (lf' & Hlf' & H'). apply bind_ok in H' as (m' & Hm' & H'). apply bind_ok in H' as (r' & Hr' & H'). injection H' as <-.
    assert (L1: Forall2 like_layer ls ls').
    { refine (mapM_like _ _ _ _ _ _ _ Hls Hls'). intros i y y' Hy Hy'. unfold top_layer in Hy, Hy'. eapply new_intermediate_like; eauto. }
    assert (L2: Forall2 like_layer ls1 ls1').
    { destruct (_ =? 0)%Z.
      - apply bind_ok in Hls1 as (L & HL & E). apply bind_ok in Hls1' as (L' & HL' & E'). injection E as <-. injection E' as <-.
        apply Forall2_app; auto. constructor; [|constructor]. cbn [like_layer]. refine (new_layer_like _ _ _ _ _ _ _ _ _ _ _ HL HL'); intros; reflexivity.
      - injection Hls1 as <-. injection Hls1' as <-. exact L1. }
    apply forall2_rev in L2.
    assert (L3: like_layer l l').
    { destruct L2 as [|a b ra rb Hab _]; [discriminate Hl|]. injection Hl as <-. injection Hl' as <-. exact Hab. }
    constructor; cbn [e_F e_C e_L e_R e_K e_leaf e_perm e_layers e_mixing e_root]; auto.
    + unfold build_input in Hlf, Hlf'. apply bind_ok in Hlf as (b & _ & Hlf). apply bind_ok in Hlf' as (b' & _ & Hlf').
      destruct (_ =? 1); injection Hlf as <-; injection Hlf' as <-; cbn [like_leaf]; rewrite (like_nf _ _ L3).
      * rewrite !argsort_length. auto.
      * split; reflexivity.
    + eapply mixing_like; eauto.
    + eapply root_like; eauto.
  - unfold build_bottom_up in H, H'.
    apply bind_ok in H as (ls & Hls & H). apply bind_ok in H as (ls1 & Hls1 & H). apply bind_ok in H as (u & Hu & H). apply bind_ok in H as (l & Hl & H).
    apply bind_ok in H as (rs & Hrs & H). apply bind_ok in H as (lf & Hlf & H). apply bind_ok in H as (m & Hm & H). apply bind_ok in H as (r & Hr & H). injection H as <-.
    apply bind_ok in H' as (ls' & Hls' & H'). apply bind_ok in H' as (ls1' & Hls1' & H'). apply bind_ok in H' as (u' & Hu' & H'). apply bind_ok in H' as (l' & Hl' & H').
    apply bind_ok in H' as (rs' & Hrs' & H'). apply bind_ok in H' as (lf' & Hlf' & H'). apply bind_ok in H' as (m' & Hm' & H'). apply bind_ok in H' as (r' & Hr' & H').
    injection H' as <-.
    assert (L1: Forall2 like_layer ls ls') by (eapply bottom_like; eauto).
    assert (L3: like_layer l l').
    { pose proof (forall2_rev _ _ _ L1) as L2. destruct L2 as [|a b ra rb Hab _]; [discriminate Hl|]. injection Hl as <-. injection Hl' as <-. exact Hab. }
    rewrite <- (like_nfo _ _ L3) in *.
    constructor; cbn [e_F e_C e_L e_R e_K e_leaf e_perm e_layers e_mixing e_root]; auto.
    + exact I.
    + apply Forall2_app; auto. constructor; [|constructor; [|constructor]]; cbn [like_layer]; auto.
      refine (new_layer_like _ _ _ _ _ _ _ _ _ _ _ Hrs Hrs'); intros; reflexivity.
    + eapply mixing_like; eauto.
    + eapply root_like; eauto.
Qed.
End Like.

(** * Loading *)
Section Load.
Context {V X : Type}.
Variable d : dict.
Hypothesis Hd : NoDup (map fst d).

Lemma same_shape_refl s : same_shape s s = Ok tt.
Proof. unfold same_shape. rewrite eqb_list_refl. reflexivity. Qed.
Lemma load_num_in n t t' : In (n, VNum t') d -> shape t' = shape t -> load_num d n t = Ok t'.
Proof. intros H E. unfold load_num. rewrite (find_in _ _ _ Hd H), E, same_shape_refl. reflexivity. Qed.
Lemma load_nat_in n t t' : In (n, VNat t') d -> shape t' = shape t -> load_nat d n t = Ok t'.
Proof. intros H E. unfold load_nat. rewrite (find_in _ _ _ Hd H), E, same_shape_refl. reflexivity. Qed.
Lemma load_vec_in n t t' : In (n, VVec t') d -> List.length t' = List.length t -> load_vec d n t = Ok t'.
Proof. intros H E. unfold load_vec. rewrite (find_in _ _ _ Hd H), E, same_shape_refl. reflexivity. Qed.
Lemma load_rows_in n a b rows : In (n, VRows a b rows) d -> load_rows d n a b = Ok rows.
Proof. intros H. unfold load_rows. rewrite (find_in _ _ _ Hd H), same_shape_refl. reflexivity. Qed.
Lemma load_slay_in p L L' : In (p ++ [Nm "logits"], VNum (logits L')) d -> like_slay L' L -> load_slay d p L = Ok L'.
Proof.
  intros H (E1 & E2 & E3 & E4 & E5). unfold load_slay. rewrite (load_num_in _ _ _ H E5). cbn [bind]. rewrite <- E1, <- E2, <- E3, <- E4.
  destruct L'; reflexivity.
Qed.
Lemma load_layer_in p l l' : incl (layer_entries p l') d -> like_layer l' l -> load_layer d p l = Ok l'.
Proof.
  intros H Hl. destruct l, l'; cbn [like_layer] in Hl; try contradiction; cbn [load_layer];
    try (rewrite (load_slay_in p L L0); [reflexivity|apply H; left; reflexivity|exact Hl]). congruence.
Qed.
Lemma load_layers_in ls' : forall i ls, incl (layers_entries i ls') d -> Forall2 like_layer ls' ls -> load_layers d i ls = Ok ls'.
Proof.
  induction ls' as [|l' ls' IH]; intros i ls H Hl; inversion Hl; subst; [reflexivity|]. cbn [layers_entries] in H. cbn [load_layers].
  rewrite (load_layer_in _ _ l'); [cbn [bind]|intros e He; apply H; apply in_or_app; auto|auto].
  rewrite (IH (S i)); [reflexivity|intros e He; apply H; apply in_or_app; auto|auto].
Qed.
Lemma load_opt_in p o o' : incl (slay_entries p o') d -> like_opt o' o -> load_opt d p o = Ok o'.
Proof.
  intros H Hl. destruct o as [L|], o' as [L'|]; cbn in Hl; try contradiction; [|reflexivity]. cbn [load_opt].
  rewrite (load_slay_in p L L'); [reflexivity|apply H; left; reflexivity|exact Hl].
Qed.
Lemma load_par_in p par' : forall par, incl (par_entries p par') d ->
  map (fun nt => (fst nt, shape (snd nt))) par' = map (fun nt => (fst nt, shape (snd nt))) par -> load_par d p par = Ok par'.
Proof.
  induction par' as [|(s & t) par' IH]; intros [|(s1 & t1) par] H E; try discriminate E; [reflexivity|]. cbn [map fst snd] in E. injection E as E1 E2 E3.
  unfold load_par. cbn [mapM fst snd]. subst s1. rewrite (load_num_in _ t1 t); [cbn [bind]|apply H; left; reflexivity|auto].
  fold (load_par d p par). rewrite IH; [reflexivity| |auto]. intros e He. apply H. right. exact He.
Qed.
End Load.

Section Restore.
Context {V X : Type}.

Lemma par_names_eq p (a b : list (string * tensor num)) :
  map (fun nt => (fst nt, shape (snd nt))) a = map (fun nt => (fst nt, shape (snd nt))) b -> map fst (par_entries p a) = map fst (par_entries p b).
Proof.
  unfold par_entries. rewrite !map_map. revert b. induction a as [|x a IH]; intros [|y b] H; try discriminate H; [reflexivity|].
  cbn [map] in *. injection H as H1 H2 H3. cbn [fst]. rewrite H1. f_equal. auto.
Qed.
Lemma layers_names_eq ls : forall i ls', Forall2 like_layer ls ls' -> map fst (layers_entries i ls) = map fst (layers_entries i ls').
Proof.
  induction ls as [|l ls IH]; intros i ls' H; inversion H as [|? l' ? lr' Hl Hr]; subst; [reflexivity|]. cbn [layers_entries]. rewrite !map_app.
  rewrite (IH (S i) lr' Hr). f_equal. destruct l, l'; cbn in Hl; try contradiction; reflexivity.
Qed.
Lemma opt_names_eq p o o' : like_opt o o' -> map fst (slay_entries p o) = map fst (slay_entries p o').
Proof. destruct o, o'; cbn; intros H; try contradiction; reflexivity. Qed.
Lemma names_eq (m m' : module V X) : like (md_net m) (md_net m') ->
  map (fun nt => (fst nt, shape (snd nt))) (md_par m) = map (fun nt => (fst nt, shape (snd nt))) (md_par m') ->
  map fst (state_dict m) = map fst (state_dict m').
Proof.
  intros H Hp. destruct H. unfold state_dict. rewrite !map_app.
  rewrite (layers_names_eq _ _ _ lk_layers0), (opt_names_eq _ _ _ lk_mixing0), (opt_names_eq _ _ _ lk_root0), (par_names_eq _ _ _ Hp).
  assert (E1: leaf_prefix (e_leaf (md_net m)) = leaf_prefix (e_leaf (md_net m'))).
  { destruct (e_leaf (md_net m)), (e_leaf (md_net m')); cbn in lk_leaf0; try contradiction; reflexivity. }
  assert (E2: map fst (leaf_entries (e_leaf (md_net m))) = map fst (leaf_entries (e_leaf (md_net m')))).
  { destruct (e_leaf (md_net m)), (e_leaf (md_net m')); cbn in lk_leaf0; try contradiction; reflexivity. }
  assert (E3: map fst (perm_entries (md_net m)) = map fst (perm_entries (md_net m'))).
  { unfold perm_entries. destruct (e_perm (md_net m)) as [(p & q)|], (e_perm (md_net m')) as [(p' & q')|]; try contradiction; reflexivity. }
  rewrite E1, E2, E3. reflexivity.
Qed.
Lemma no_unexpected_names d own : (forall n, In n (map fst d) -> In n (map fst own)) -> no_unexpected d own = Ok tt.
Proof.
  intros H. unfold no_unexpected. replace (forallb _ d) with true; [reflexivity|]. symmetry. apply forallb_forall. intros (n & v) Hi. cbn [fst].
  unfold known. destruct (find_key own n) eqn:E; [reflexivity|]. exfalso. apply find_none in E. apply E, H. apply (in_map fst) in Hi. exact Hi.
Qed.

(** The model after loading: the network of the saved model around the leaf object of the loading one. *)
Definition restored (m m' : module V X) : module V X :=
  mkMod (mkE (e_F (md_net m)) (e_C (md_net m)) (e_L (md_net m)) (e_R (md_net m)) (e_K (md_net m))
           (match e_leaf (md_net m), leaf_of (e_leaf (md_net m')) with
            | LFact _ Fo sc, lf => LFact lf Fo sc
            | LSimple _ Fo p q, lf => LSimple lf Fo p q
            | LBase _, lf => LBase lf
            end) (e_perm (md_net m)) (e_layers (md_net m)) (e_mixing (md_net m)) (e_root (md_net m))) (md_par m) (md_x m').
Lemma load_restored (m m' : module V X) : like (md_net m) (md_net m') -> NoDup (map fst (md_par m)) ->
  map (fun nt => (fst nt, shape (snd nt))) (md_par m) = map (fun nt => (fst nt, shape (snd nt))) (md_par m') ->
  load_state_dict (state_dict m) m' = Ok (restored m m').
Proof.
  intros H Hn Hp. pose proof (state_nodup m Hn) as Hd. pose proof (names_eq m m' H Hp) as Hnm. destruct H. unfold load_state_dict.
  rewrite no_unexpected_names by (intros n Hi; rewrite <- Hnm; exact Hi). cbn [bind].
  assert (Hprefix: leaf_prefix (e_leaf (md_net m')) = leaf_prefix (e_leaf (md_net m))).
  { destruct (e_leaf (md_net m)), (e_leaf (md_net m')); cbn in lk_leaf0; try contradiction; reflexivity. }
  assert (Hin: forall (A B C : dict), incl B (A ++ B ++ C)).
  { intros A B C e He. apply in_or_app. right. apply in_or_app. auto. }
  rewrite Hprefix, (load_par_in _ Hd _ (md_par m)); [cbn [bind]|intros e He; unfold state_dict; apply in_or_app; auto|exact Hp].
  assert (Hleaf: load_leaf (state_dict m) (e_leaf (md_net m')) = Ok (e_leaf (md_net (restored m m')))).
  { assert (Hi: incl (leaf_entries (e_leaf (md_net m))) (state_dict m)) by (unfold state_dict; apply Hin).
    cbn [restored md_net e_leaf]. destruct (e_leaf (md_net m)) eqn:E1, (e_leaf (md_net m')) eqn:E2; cbn [like_leaf] in lk_leaf0; try contradiction; cbn [load_leaf leaf_of].
    - destruct lk_leaf0 as (-> & Hs). rewrite (load_nat_in _ Hd _ _ scopes); [reflexivity|apply Hi; left; reflexivity|exact Hs].
    - destruct lk_leaf0 as (-> & H1 & H2). rewrite (load_vec_in _ Hd _ _ perm); [cbn [bind]|apply Hi; left; reflexivity|exact H1].
      rewrite (load_vec_in _ Hd _ _ pinv); [reflexivity|apply Hi; right; left; reflexivity|exact H2].
    - reflexivity. }
  rewrite Hleaf. cbn [bind].
  rewrite (load_layers_in _ Hd (e_layers (md_net m))); [cbn [bind]| |exact lk_layers0].
  2:{ unfold state_dict. intros e He. apply in_or_app. right. apply in_or_app. right. apply in_or_app. auto. }
  assert (Hpm: load_perm (state_dict m) (md_net m') = Ok (e_perm (md_net m))).
  { assert (Hi: incl (perm_entries (md_net m)) (state_dict m)).
    { unfold state_dict. intros e He. apply in_or_app. right. apply in_or_app. right. apply in_or_app. right. apply in_or_app. auto. }
    unfold load_perm, perm_entries in *. destruct (e_perm (md_net m)) as [(p & q)|], (e_perm (md_net m')) as [(p' & q')|]; try contradiction; [|reflexivity].
    rewrite <- lk_R0, <- lk_F0. rewrite (load_rows_in _ Hd _ _ _ p); [cbn [bind]|apply Hi; left; reflexivity].
    rewrite (load_rows_in _ Hd _ _ _ q); [reflexivity|apply Hi; right; left; reflexivity]. }
  rewrite Hpm. cbn [bind].
  rewrite (load_opt_in _ Hd _ _ (e_mixing (md_net m))); [cbn [bind]| |exact lk_mixing0].
  2:{ unfold state_dict. intros e He. apply in_or_app. right. apply in_or_app. right. apply in_or_app. right. apply in_or_app. right. apply in_or_app. auto. }
  rewrite (load_opt_in _ Hd _ _ (e_root (md_net m))); [cbn [bind]| |exact lk_root0].
  2:{ unfold state_dict. intros e He. apply in_or_app. right. apply in_or_app. right. apply in_or_app. right. apply in_or_app. right. apply in_or_app. auto. }
  unfold restored. rewrite lk_F0, lk_C0, lk_L0, lk_R0, lk_K0. reflexivity.
Qed.
Lemma restored_dict (m m' : module V X) : state_dict (restored m m') = state_dict m.
Proof. unfold state_dict, restored, perm_entries. cbn. destruct (e_leaf (md_net m)); reflexivity. Qed.
Lemma restored_network cls (m m' : module V X) : md_x m = md_x m' -> network cls (restored m m') = network cls m.
Proof.
  intros E. unfold network, restored. cbn [md_par md_x md_net]. rewrite E. destruct (cls _ _); [|reflexivity]. cbn [bind]. unfold with_leaf.
  cbn [e_F e_C e_L e_R e_K e_leaf e_perm e_layers e_mixing e_root]. destruct (e_leaf (md_net m)); reflexivity.
Qed.
End Restore.

(** * Loading any dict *)
Definition kind (v : value) : nat :=
  match v with VNum _ => 0 | VNat _ => 1 | VVec _ => 2 | VRows _ _ _ => 3 | VWts _ => 4 | VCen _ => 5 end.
Definition sig (v : value) : nat * list nat := (kind v, vshape v).
(** [b] has the keys of [a], values of the same kinds and shapes, and all of them are those of [d]. *)
Definition tracks (d a b : dict) : Prop :=
  Forall2 (fun x y => fst x = fst y /\ sig (snd x) = sig (snd y) /\ find_key d (fst y) = Some (snd y)) a b.
Definition fits (d a : dict) : Prop := forall n v, In (n, v) a -> option_map sig (find_key d n) = Some (sig v).

Section Strict.
Context {V X : Type}.
Variable d : dict.

Lemma same_shape_ok a b u : same_shape a b = Ok u -> a = b.
Proof. unfold same_shape, guard. destruct (eqb_list a b) eqn:E; [|discriminate]. intros _. apply eqb_list_eq. exact E. Qed.
Lemma load_num_ok n t t' : load_num d n t = Ok t' -> find_key d n = Some (VNum t') /\ shape t' = shape t.
Proof.
  unfold load_num. destruct (find_key d n) as [[]|]; try discriminate. intros H. apply bind_ok in H as (u & Hs & H). injection H as <-.
  apply same_shape_ok in Hs. auto.
Qed.
Lemma load_nat_ok n t t' : load_nat d n t = Ok t' -> find_key d n = Some (VNat t') /\ shape t' = shape t.
Proof.
  unfold load_nat. destruct (find_key d n) as [[]|]; try discriminate. intros H. apply bind_ok in H as (u & Hs & H). injection H as <-.
  apply same_shape_ok in Hs. auto.
Qed.
Lemma load_vec_ok n t t' : load_vec d n t = Ok t' -> find_key d n = Some (VVec t') /\ List.length t' = List.length t.
Proof.
  unfold load_vec. destruct (find_key d n) as [[]|]; try discriminate. intros H. apply bind_ok in H as (u & Hs & H). injection H as <-.
  apply same_shape_ok in Hs. injection Hs as Hs. auto.
Qed.
Lemma load_rows_ok n a b rows : load_rows d n a b = Ok rows -> find_key d n = Some (VRows a b rows).
Proof.
  unfold load_rows. destruct (find_key d n) as [[]|]; try discriminate. intros H. apply bind_ok in H as (u & Hs & H). injection H as <-.
  apply same_shape_ok in Hs. injection Hs as -> ->. auto.
Qed.
Lemma tracks_one n v v' : sig v = sig v' -> find_key d n = Some v' -> tracks d [(n, v)] [(n, v')].
Proof. intros H1 H2. constructor; [|constructor]. auto. Qed.
Lemma tracks_app a b a' b' : tracks d a b -> tracks d a' b' -> tracks d (a ++ a') (b ++ b').
Proof. apply Forall2_app. Qed.
Lemma load_slay_ok p L L' : load_slay d p L = Ok L' -> tracks d [(p ++ [Nm "logits"], VNum (logits L))] [(p ++ [Nm "logits"], VNum (logits L'))].
Proof.
  unfold load_slay. intros H. apply bind_ok in H as (t & Ht & H). injection H as <-. apply load_num_ok in Ht as (Hf & Hs). cbn [logits].
  apply tracks_one; auto. unfold sig. cbn. rewrite Hs. reflexivity.
Qed.
Lemma load_layers_ok ls : forall i ls', load_layers d i ls = Ok ls' -> tracks d (layers_entries i ls) (layers_entries i ls').
Proof.
  induction ls as [|l ls IH]; intros i ls' H; cbn [load_layers] in H; [injection H as <-; constructor|].
  apply bind_ok in H as (l' & Hl & H). apply bind_ok in H as (r & Hr & H). injection H as <-. cbn [layers_entries]. apply tracks_app; auto.
  destruct l; cbn [load_layer] in Hl; try (apply bind_ok in Hl as (L' & HL & Hl)); injection Hl as <-; cbn [layer_entries];
    try (apply load_slay_ok; exact HL). constructor.
Qed.
Lemma load_opt_ok p o o' : load_opt d p o = Ok o' -> tracks d (slay_entries p o) (slay_entries p o').
Proof.
  destruct o as [L|]; cbn [load_opt]; intros H; [|injection H as <-; constructor]. apply bind_ok in H as (L' & HL & H). injection H as <-.
  apply load_slay_ok. exact HL.
Qed.
Lemma load_par_ok p par : forall par', load_par d p par = Ok par' -> tracks d (par_entries p par) (par_entries p par').
Proof.
  unfold load_par. induction par as [|(s & t) par IH]; intros par' H; cbn [mapM] in H; [injection H as <-; constructor|].
  apply bind_ok in H as (nt & Hn & H). apply bind_ok in H as (r & Hr & H). injection H as <-. apply bind_ok in Hn as (t' & Ht & Hn). injection Hn as <-.
  cbn [fst snd] in *. apply load_num_ok in Ht as (Hf & Hs). cbn [par_entries map fst snd]. constructor; [|apply IH; auto]. cbn [fst snd].
  unfold sig. cbn. rewrite Hs. auto.
Qed.
Lemma load_leaf_ok (l l' : leaf_layer V) : load_leaf d l = Ok l' -> tracks d (leaf_entries l) (leaf_entries l') /\ leaf_prefix l = leaf_prefix l'.
Proof.
  destruct l; cbn [load_leaf]; intros H.
  - apply bind_ok in H as (sc & Hs & H). injection H as <-. apply load_nat_ok in Hs as (Hf & Hs). split; [|reflexivity]. apply tracks_one; auto.
    unfold sig. cbn. rewrite Hs. reflexivity.
  - apply bind_ok in H as (p & Hp & H). apply bind_ok in H as (q & Hq & H). injection H as <-. apply load_vec_ok in Hp as (Hp & Lp).
    apply load_vec_ok in Hq as (Hq & Lq). split; [|reflexivity]. cbn [leaf_entries]. constructor; [|apply tracks_one; auto]; cbn [fst snd]; unfold sig; cbn.
    + rewrite Lp. auto.
    + rewrite Lq. auto.
  - injection H as <-. split; [constructor|reflexivity].
Qed.
Lemma load_tracks (m m' : module V X) : load_state_dict d m = Ok m' ->
  no_unexpected d (state_dict m) = Ok tt /\ tracks d (state_dict m) (state_dict m').
Proof.
  unfold load_state_dict. intros H. apply bind_ok in H as ([] & Hu & H). split; [exact Hu|].
  apply bind_ok in H as (par & Hpar & H). apply bind_ok in H as (lf & Hlf & H). apply bind_ok in H as (ls & Hls & H).
  apply bind_ok in H as (pm & Hpm & H). apply bind_ok in H as (mx & Hmx & H). apply bind_ok in H as (rt & Hrt & H). injection H as <-.
  apply load_leaf_ok in Hlf as (Hlf & Hpre). unfold state_dict. cbn [md_net md_par e_leaf e_layers e_mixing e_root]. rewrite <- Hpre.
  apply tracks_app; [apply load_par_ok; exact Hpar|]. apply tracks_app; [exact Hlf|]. apply tracks_app; [apply load_layers_ok; exact Hls|].
  apply tracks_app; [|apply tracks_app; apply load_opt_ok; assumption].
  unfold perm_entries, load_perm in *. cbn [e_perm e_R e_F]. destruct (e_perm (md_net m)) as [(p & q)|].
  - apply bind_ok in Hpm as (p' & Hp & Hpm). apply bind_ok in Hpm as (q' & Hq & Hpm). injection Hpm as <-.
    apply load_rows_ok in Hp. apply load_rows_ok in Hq. constructor; [|apply tracks_one]; auto.
  - injection Hpm as <-. constructor.
Qed.
Lemma tracks_names a b : tracks d a b -> map fst a = map fst b.
Proof. induction 1 as [|x y a b (H & _) _ IH]; [reflexivity|]. cbn [map]. congruence. Qed.
Lemma tracks_in a b n v : tracks d a b -> In (n, v) a -> exists v', In (n, v') b /\ sig v = sig v' /\ find_key d n = Some v'.
Proof.
  induction 1 as [|x y a b (H1 & H2 & H3) _ IH]; intros Hi; [destruct Hi|]. destruct Hi as [->|Hi].
  - destruct y as (n' & v'). cbn [fst snd] in *. subst n'. exists v'. split; [left; reflexivity|auto].
  - destruct (IH Hi) as (v' & Hv & Hr). exists v'. split; [right; exact Hv|exact Hr].
Qed.

(** Whenever keys and shapes agree, loading succeeds. *)
Lemma fits_find a n v : fits d a -> In (n, v) a -> exists v', find_key d n = Some v' /\ sig v' = sig v.
Proof. intros H Hi. specialize (H n v Hi). destruct (find_key d n) as [v'|]; [|discriminate]. exists v'. split; [reflexivity|]. cbn [option_map] in H. congruence. Qed.
Lemma load_num_fits a n t : fits d a -> In (n, VNum t) a -> exists t', load_num d n t = Ok t'.
Proof.
  intros H Hi. destruct (fits_find a n _ H Hi) as (v' & Hf & Hs). destruct v' as [t'| | | | |]; try discriminate Hs. unfold sig in Hs. cbn in Hs. injection Hs as Hs.
  unfold load_num. rewrite Hf, Hs, same_shape_refl. eexists. reflexivity.
Qed.
Lemma load_slay_fits a p L : fits d a -> In (p ++ [Nm "logits"], VNum (logits L)) a -> exists L', load_slay d p L = Ok L'.
Proof. intros H Hi. unfold load_slay. destruct (load_num_fits a _ _ H Hi) as (t' & ->). eexists. reflexivity. Qed.
Lemma load_opt_fits p o : fits d (slay_entries p o) -> exists o', load_opt d p o = Ok o'.
Proof.
  intros H. destruct o as [L|]; [|eexists; reflexivity]. cbn [load_opt]. destruct (load_slay_fits _ p L H) as (L' & ->); [left; reflexivity|].
  eexists. reflexivity.
Qed.
Lemma fits_l a b : fits d (a ++ b) -> fits d a.
Proof. intros H n v Hi. apply H. apply in_or_app. auto. Qed.
Lemma fits_r a b : fits d (a ++ b) -> fits d b.
Proof. intros H n v Hi. apply H. apply in_or_app. auto. Qed.
Lemma load_layers_fits ls : forall i, fits d (layers_entries i ls) -> exists ls', load_layers d i ls = Ok ls'.
Proof.
  induction ls as [|l ls IH]; intros i H; [eexists; reflexivity|]. cbn [layers_entries] in H. cbn [load_layers].
  assert (Hl: exists l', load_layer d [Nm "layers"; Ix i] l = Ok l').
  { apply fits_l in H. destruct l; cbn [load_layer layer_entries] in *; [..|eexists; reflexivity];
      (destruct (load_slay_fits _ [Nm "layers"; Ix i] L H) as (L' & ->); [left; reflexivity|eexists; reflexivity]). }
  destruct Hl as (l' & ->). cbn [bind]. destruct (IH (S i) (fits_r _ _ H)) as (r & ->). eexists. reflexivity.
Qed.
Lemma load_par_fits p par : fits d (par_entries p par) -> exists par', load_par d p par = Ok par'.
Proof.
  unfold load_par. induction par as [|(s & t) par IH]; intros H; [eexists; reflexivity|]. cbn [mapM fst snd].
  destruct (load_num_fits _ (p ++ [Nm s]) t H) as (t' & ->); [left; reflexivity|]. cbn [bind].
  destruct IH as (r & ->); [|eexists; reflexivity]. intros n v Hi. apply H. right. exact Hi.
Qed.
Lemma load_fits (m : module V X) : no_unexpected d (state_dict m) = Ok tt -> fits d (state_dict m) -> exists m', load_state_dict d m = Ok m'.
Proof.
  intros Hu H. unfold load_state_dict. rewrite Hu. cbn [bind]. unfold state_dict in H.
  destruct (load_par_fits _ _ (fits_l _ _ H)) as (par & ->). cbn [bind]. apply fits_r in H.
  assert (Hlf: exists lf, load_leaf d (e_leaf (md_net m)) = Ok lf).
  { apply fits_l in H. destruct (e_leaf (md_net m)) as [lf Fo sc|lf Fo p q|lf]; cbn [load_leaf leaf_entries] in *; [| |eexists; reflexivity].
    - destruct (fits_find _ [Nm "leaf"; Nm "scopes"] (VNat sc) H) as (v' & Hf & Hs); [left; reflexivity|]. destruct v' as [|t'| | | |]; try discriminate Hs.
      unfold sig in Hs. cbn in Hs. injection Hs as Hs. unfold load_nat. rewrite Hf, Hs, same_shape_refl. eexists. reflexivity.
    - destruct (fits_find _ [Nm "leaf"; Nm "permutation"] (VVec p) H) as (v' & Hf & Hs); [left; reflexivity|]. destruct v' as [| |p'| | |]; try discriminate Hs.
      destruct (fits_find _ [Nm "leaf"; Nm "inverse_permutation"] (VVec q) H) as (v' & Hf' & Hs'); [right; left; reflexivity|]. destruct v' as [| |q'| | |]; try discriminate Hs'.
      unfold sig in Hs, Hs'. cbn in Hs, Hs'. injection Hs as Hs. injection Hs' as Hs'. unfold load_vec.
      rewrite Hf, Hs, same_shape_refl. cbn [bind]. rewrite Hf', Hs', same_shape_refl. eexists. reflexivity. }
  destruct Hlf as (lf & ->). cbn [bind]. apply fits_r in H. destruct (load_layers_fits _ _ (fits_l _ _ H)) as (ls & ->). cbn [bind]. apply fits_r in H.
  assert (Hpm: exists pm, load_perm d (md_net m) = Ok pm).
  { apply fits_l in H. unfold perm_entries, load_perm in *. destruct (e_perm (md_net m)) as [(p & q)|]; [|eexists; reflexivity].
    destruct (fits_find _ [Nm "permutation"] (VRows (e_R (md_net m)) (e_F (md_net m)) p) H) as (v' & Hf & Hs); [left; reflexivity|]. destruct v' as [| | |a' b' p'| |]; try discriminate Hs.
    destruct (fits_find _ [Nm "permutation_inv"] (VRows (e_R (md_net m)) (e_F (md_net m)) q) H) as (v' & Hf' & Hs'); [right; left; reflexivity|]. destruct v' as [| | |a2 b2 q'| |]; try discriminate Hs'.
    unfold sig in Hs, Hs'. cbn in Hs, Hs'. injection Hs as Hs1 Hs2. injection Hs' as Hs1' Hs2'. unfold load_rows.
    rewrite Hf, Hs1, Hs2, same_shape_refl. cbn [bind]. rewrite Hf', Hs1', Hs2', same_shape_refl. eexists. reflexivity. }
  destruct Hpm as (pm & ->). cbn [bind]. apply fits_r in H. destruct (load_opt_fits _ _ (fits_l _ _ H)) as (mx & ->). cbn [bind].
  destruct (load_opt_fits _ _ (fits_r _ _ H)) as (rt & ->). eexists. reflexivity.
Qed.
Lemma no_unexpected_inv own : no_unexpected d own = Ok tt -> forall n, In n (map fst d) -> In n (map fst own).
Proof.
  unfold no_unexpected, guard. destruct (forallb _ d) eqn:E; [|discriminate]. intros _ n Hi. apply in_map_iff in Hi as ((n' & v) & <- & Hi).
  rewrite forallb_forall in E. specialize (E _ Hi). unfold known in E. cbn [fst] in *. destruct (find_key own n') eqn:Ef; [|discriminate].
  apply find_some in Ef. apply (in_map fst) in Ef. exact Ef.
Qed.

(** Every failure is a RuntimeError. *)
Lemma load_num_err n t e : load_num d n t = Err e -> e = RuntimeErr.
Proof. unfold load_num, same_shape, guard. destruct (find_key d n) as [[]|]; try congruence. destruct (eqb_list _ _); cbn; congruence. Qed.
Lemma load_slay_err p L e : load_slay d p L = Err e -> e = RuntimeErr.
Proof. unfold load_slay. destruct (load_num _ _ _) eqn:E; cbn; [discriminate|]. intros H. injection H as <-. eapply load_num_err; eauto. Qed.
Lemma load_err (m : module V X) e : load_state_dict d m = Err e -> e = RuntimeErr.
Proof.
  unfold load_state_dict. unfold no_unexpected at 1, guard. destruct (forallb _ _); cbn [bind]; [|congruence].
  destruct (load_par _ _ _) as [par|e1] eqn:E1; cbn [bind].
  2:{ intros H. injection H as <-. revert E1. unfold load_par. induction (md_par m) as [|(s & t) par IH]; cbn [mapM]; [discriminate|].
      cbn [fst snd]. destruct (load_num _ _ _) eqn:E; cbn [bind]; [|intros H; injection H as <-; eapply load_num_err; eauto].
      destruct (mapM _ par) eqn:Em; cbn [bind]; [discriminate|]. auto. }
  destruct (load_leaf _ _) as [lf|e2] eqn:E2; cbn [bind].
  2:{ intros H. injection H as <-. destruct (e_leaf (md_net m)); cbn [load_leaf] in E2; [| |discriminate].
      - unfold load_nat, same_shape, guard in E2. destruct (find_key _ _) as [[]|]; cbn in E2; try congruence. destruct (eqb_list _ _); cbn in E2; congruence.
      - unfold load_vec, same_shape, guard in E2. destruct (find_key _ _) as [[]|]; cbn [bind] in E2; try congruence. destruct (eqb_list _ _); cbn [bind] in E2; try congruence.
        destruct (find_key _ _) as [[]|]; cbn [bind] in E2; try congruence. destruct (eqb_list _ _); cbn in E2; congruence. }
  destruct (load_layers _ _ _) as [ls|e3] eqn:E3; cbn [bind].
  2:{ intros H. injection H as <-. revert E3. generalize 0. induction (e_layers (md_net m)) as [|l ls IH]; intros i; cbn [load_layers]; [discriminate|].
      destruct (load_layer _ _ l) eqn:El; cbn [bind].
      - destruct (load_layers d (S i) ls) eqn:Er; cbn [bind]; [discriminate|]. intros H. injection H as <-. eapply IH; eauto.
      - intros H. injection H as <-. destruct l; cbn [load_layer] in El; [..|discriminate];
          (destruct (load_slay _ _ _) eqn:Es; cbn in El; [discriminate|]; injection El as <-; eapply load_slay_err; eauto). }
  destruct (load_perm _ _) as [pm|e4] eqn:E4; cbn [bind].
  2:{ intros H. injection H as <-. unfold load_perm in E4. destruct (e_perm (md_net m)); [|discriminate]. unfold load_rows, same_shape, guard in E4.
      destruct (find_key _ _) as [[]|]; cbn [bind] in E4; try congruence. destruct (eqb_list _ _); cbn [bind] in E4; try congruence.
      destruct (find_key _ _) as [[]|]; cbn [bind] in E4; try congruence. destruct (eqb_list _ _); cbn in E4; congruence. }
  assert (Ho: forall p o e', load_opt d p o = Err e' -> e' = RuntimeErr).
  { intros p o e' H. destruct o as [L|]; cbn [load_opt] in H; [|discriminate]. destruct (load_slay _ _ _) eqn:Es; cbn in H; [discriminate|].
    injection H as <-. eapply load_slay_err; eauto. }
  destruct (load_opt _ _ (e_mixing _)) as [mx|e5] eqn:E5; cbn [bind]; [|intros H; injection H as <-; eauto].
  destruct (load_opt _ _ (e_root _)) as [rt|e6] eqn:E6; cbn [bind]; [discriminate|intros H; injection H as <-; eauto].
Qed.
End Strict.

(** * Theorems *)
Section Theorems.
Context {V X : Type}.

(** The leaves of two models of one class have parameters of the same names and shapes, all names different. *)
Definition same_class (par par' : list (string * tensor num)) : Prop :=
  NoDup (map fst par) /\ map (fun nt => (fst nt, shape (snd nt))) par = map (fun nt => (fst nt, shape (snd nt))) par'.

(** Any model ([o], [par]: whatever training left) is restored in any other model of the same configuration, with the same
    log-likelihoods and the same samples, provided the leaf has the same attributes outside the state dict. *)
Theorem C70_restored_partial (cls : leaf_class V X) g (o o' : oracle V) par par' x m m' :
  List.length (o_perm o 0) = List.length (o_perm o' 0) -> same_class par par' ->
  new_module g o par x = Ok m -> new_module g o' par' x = Ok m' ->
  exists r, load_state_dict (state_dict m) m' = Ok r /\ state_dict r = state_dict m /\
    (forall data ms, module_forward cls r data ms = module_forward cls m data ms) /\
    (forall a, module_sample cls r a = module_sample cls m a).
Proof.
  intros Hp (Hn & Hs) H H'. unfold new_module in H, H'. apply bind_ok in H as (E & HE & H). apply bind_ok in H' as (E' & HE' & H').
  injection H as <-. injection H' as <-. pose proof (build_like g o o' E E' Hp HE HE') as Hl.
  exists (restored (mkMod E par x) (mkMod E' par' x)). split; [apply load_restored; auto|]. split; [apply restored_dict|].
  split; intros; [unfold module_forward|unfold module_sample]; rewrite restored_network by reflexivity; reflexivity.
Qed.

(** Loading succeeds exactly when keys and shapes agree; then every entry is the saved one.  Any other file raises RuntimeError. *)
Theorem C70_strict (d : dict) (m : module V X) : NoDup (map fst (md_par m)) ->
  (forall r, load_state_dict d m = Ok r -> md_x r = md_x m /\ forall n, find_key (state_dict r) n = find_key d n) /\
  ((exists r, load_state_dict d m = Ok r) <-> forall n, option_map sig (find_key d n) = option_map sig (find_key (state_dict m) n)) /\
  (forall e, load_state_dict d m = Err e -> e = RuntimeErr).
Proof.
  intros Hn. pose proof (state_nodup m Hn) as Hd.
  assert (Hmain: forall r, load_state_dict d m = Ok r ->
    forall n, find_key (state_dict r) n = find_key d n /\ option_map sig (find_key d n) = option_map sig (find_key (state_dict m) n)).
  { intros r Hr n. destruct (load_tracks d m r Hr) as (Hu & Ht). pose proof (tracks_names d _ _ Ht) as Hnm.
    destruct (find_key (state_dict m) n) as [v|] eqn:Ef.
    - apply find_some in Ef. destruct (tracks_in d _ _ n v Ht Ef) as (v' & Hi & Hs & Hf). rewrite Hf.
      rewrite (find_in (state_dict r) n v'); [cbn; rewrite Hs; auto|rewrite <- Hnm; exact Hd|exact Hi].
    - pose proof (no_unexpected_inv d _ Hu n) as Hx. apply find_none in Ef. assert (E1: find_key d n = None) by (apply find_none; auto).
      assert (E2: find_key (state_dict r) n = None) by (apply find_none; rewrite <- Hnm; auto). rewrite E1, E2. auto. }
  split; [|split].
  - intros r Hr. split; [|intros n; apply (Hmain r Hr n)]. unfold load_state_dict in Hr.
    repeat (apply bind_ok in Hr as (? & _ & Hr)). injection Hr as <-. reflexivity.
  - split; [intros (r & Hr) n; apply (Hmain r Hr n)|]. intros H. apply load_fits.
    + apply no_unexpected_names. intros n Hi. destruct (find_key (state_dict m) n) as [v|] eqn:Ef.
      * apply find_some in Ef. apply (in_map fst) in Ef. exact Ef.
      * exfalso. specialize (H n). rewrite Ef in H. destruct (find_key d n) eqn:E; [discriminate|]. apply find_none in E. auto.
    + intros n v Hi. rewrite H, (find_in _ _ _ Hd Hi). reflexivity.
  - apply load_err.
Qed.
End Theorems.

(** Not every attribute is saved: a PiecewiseLinear model loads without an error and then cannot be used. *)
Theorem C70_piecewise_refuted g (o o' : oracle nat) par par' F C L Rn B (xs : list nat -> list R) (ys : list nat -> list num) m m' :
  List.length (o_perm o 0) = List.length (o_perm o' 0) -> same_class par par' ->
  new_module g o par (Some (xs, ys)) = Ok m -> new_module g o' par' None = Ok m' ->
  exists r, load_state_dict (state_dict m) m' = Ok r /\
    (forall data ms, module_forward (pl_class F C L Rn B) r data ms = Err ValueErr) /\
    (forall a, module_sample (pl_class F C L Rn B) r a = Fail ValueErr).
Proof.
  intros Hp (Hn & Hs) H H'. unfold new_module in H, H'. apply bind_ok in H as (E & HE & H). apply bind_ok in H' as (E' & HE' & H').
  injection H as <-. injection H' as <-. pose proof (build_like g o o' E E' Hp HE HE') as Hl.
  eexists. split; [apply load_restored; auto|]. split; reflexivity.
Qed.

(** * Mixtures *)
Section Mixtures.
Context {V X : Type}.

Lemma under_app p (a b : dict) : under p (a ++ b) = under p a ++ under p b.
Proof. unfold under. apply flat_map_app. Qed.
Lemma under_prefixed p (a : dict) : under p (prefixed p a) = a.
Proof.
  unfold under, prefixed. induction a as [|(n & v) a IH]; [reflexivity|]. cbn [map flat_map fst snd].
  rewrite firstn_app, firstn_all, Nat.sub_diag, firstn_O, app_nil_r. destruct (name_dec p p); [|congruence].
  rewrite skipn_app, skipn_all, Nat.sub_diag. cbn [skipn app]. rewrite IH. reflexivity.
Qed.
Lemma under_other p q (a : dict) : List.length p = List.length q -> p <> q -> under p (prefixed q a) = [].
Proof.
  intros Hl Hn. unfold under, prefixed. induction a as [|(n & v) a IH]; [reflexivity|]. cbn [map flat_map fst snd]. rewrite Hl.
  rewrite firstn_app, firstn_all, Nat.sub_diag, firstn_O, app_nil_r. destruct (name_dec q p); [congruence|]. cbn [app]. rewrite <- Hl. exact IH.
Qed.
Lemma under_models k i (ms : list (module V X)) : k < i -> under [Nm "models"; Ix k] (models_entries i ms) = [].
Proof.
  revert i. induction ms as [|m ms IH]; intros i H; [reflexivity|]. cbn [models_entries]. rewrite under_app, IH by lia. rewrite app_nil_r.
  apply under_other; [reflexivity|]. intros E. injection E as E. lia.
Qed.
Lemma load_models_restored (tail : dict) (ms : list (module V X)) : (forall i, under [Nm "models"; Ix i] tail = []) ->
  forall i ms' pre, (forall k, i <= k -> under [Nm "models"; Ix k] pre = []) ->
  Forall2 (fun m m' => like (md_net m) (md_net m') /\ same_class (md_par m) (md_par m')) ms ms' ->
  load_models (pre ++ models_entries i ms ++ tail) i ms' = Ok (map (fun mm => restored (fst mm) (snd mm)) (combine ms ms')).
Proof.
  intros Ht. induction ms as [|m ms IH]; intros i ms' pre Hpre H; inversion H as [|? m' ? r' (H1 & H2 & H3) Hr]; subst; [reflexivity|].
  cbn [load_models models_entries combine map fst snd].
  rewrite !under_app, Hpre, under_prefixed, under_models, Ht, !app_nil_r by lia. cbn [app]. rewrite load_restored by auto. cbn [bind].
  rewrite <- app_assoc, app_assoc. rewrite IH; [reflexivity| |exact Hr].
  intros k Hk. rewrite under_app, Hpre by lia. apply under_other; [reflexivity|]. intros E. injection E as E. lia.
Qed.
Lemma models_names i (ms : list (module V X)) n : In n (map fst (models_entries i ms)) -> hd_error n = Some (Nm "models").
Proof.
  revert i. induction ms as [|m ms IH]; intros i H; [destruct H|]. cbn [models_entries] in H. rewrite map_app in H. apply in_app_or in H as [H|H]; [|eauto].
  unfold prefixed in H. rewrite map_map in H. apply in_map_iff in H as (nv & <- & _). reflexivity.
Qed.
Lemma models_names_eq (ms : list (module V X)) : forall i (ms' : list (module V X)),
  Forall2 (fun m m' => like (md_net m) (md_net m') /\ same_class (md_par m) (md_par m')) ms ms' ->
  map fst (models_entries i ms) = map fst (models_entries i ms').
Proof.
  induction ms as [|m ms IH]; intros i ms' H; inversion H as [|? m' ? r' (H1 & H2 & H3) Hr]; subst; [reflexivity|]. cbn [models_entries].
  rewrite !map_app, (IH (S i) r' Hr). f_equal.
  assert (Hpre: forall a, map fst (prefixed [Nm "models"; Ix i] a) = map (fun k => [Nm "models"; Ix i] ++ k) (map fst a)).
  { intros a. unfold prefixed. rewrite !map_map. reflexivity. }
  rewrite !Hpre, (names_eq m m' H1 H3). reflexivity.
Qed.
Lemma find_app_none (a b : dict) n : find_key a n = None -> find_key (a ++ b) n = find_key b n.
Proof. induction a as [|(n' & v) a IH]; cbn [find_key app]; [reflexivity|]. destruct (name_dec n n'); [discriminate|auto]. Qed.

(** The components of a mixture: what each is drawn with *)
Definition same_parts (ps ps' : list (oracle V * list (string * tensor num) * X)) : Prop :=
  Forall2 (fun '(o, par, x) '(o', par', x') => List.length (o_perm o 0) = List.length (o_perm o' 0) /\ same_class par par' /\ x = x') ps ps'.

Lemma parts_like g ps ps' : same_parts ps ps' -> forall ms ms',
  mapM (fun '(o, par, x) => new_module g o par x) ps = Ok ms -> mapM (fun '(o, par, x) => new_module g o par x) ps' = Ok ms' ->
  Forall2 (fun m m' => like (md_net m) (md_net m') /\ same_class (md_par m) (md_par m')) ms ms' /\ Forall2 (fun m m' => md_x m = md_x m') ms ms'.
Proof.
  induction 1 as [|((o & par) & x) ((o' & par') & x') ps ps' (Hp & Hc & ->) Hr IH]; intros ms ms' H H'; cbn [mapM] in H, H'.
  - injection H as <-. injection H' as <-. split; constructor.
  - apply bind_ok in H as (m & Hm & H). apply bind_ok in H as (r & Hms & H). injection H as <-.
    apply bind_ok in H' as (m' & Hm' & H'). apply bind_ok in H' as (r' & Hms' & H'). injection H' as <-.
    destruct (IH _ _ Hms Hms') as (I1 & I2). unfold new_module in Hm, Hm'. apply bind_ok in Hm as (E & HE & Hm). apply bind_ok in Hm' as (E' & HE' & Hm').
    injection Hm as <-. injection Hm' as <-. split; constructor; auto. cbn [md_net md_par]. split; auto. eapply build_like; eauto.
Qed.

(** A trained and initialized mixture, saved and loaded into a new mixture of the same configuration: it is restored exactly
    when initialize left one weight per component and centroids with one column per feature; otherwise RuntimeError. *)
Theorem C70_mixture_partial (val : V -> R) (cls : leaf_class V X) g ps ps' ew ec ew' ec' limit tc fit data loader wc m m' :
  same_parts ps ps' -> new_mixture g ps ew ec = Ok m -> new_mixture g ps' ew' ec' = Ok m' ->
  initialize limit tc fit data loader = Ok wc ->
  let n := List.length ps in let saved := set_clusters m wc in
  (List.length (fst wc) = n -> shape (snd wc) = [n; nval (g_F g)] ->
     exists r, mix_load_state_dict (mix_state_dict saved) m' = Ok r /\
       (forall nf x ms, mixmod_forward val cls nf r x ms = mixmod_forward val cls nf saved x ms) /\
       (forall nf a, mixmod_sample val cls nf r a = mixmod_sample val cls nf saved a)) /\
  (~ (List.length (fst wc) = n /\ shape (snd wc) = [n; nval (g_F g)]) -> mix_load_state_dict (mix_state_dict saved) m' = Err RuntimeErr).
Proof.
  intros Hps H H' Hi n saved. unfold new_mixture in H, H'. apply bind_ok in H as (ms & Hms & H). apply bind_ok in H' as (ms' & Hms' & H').
  injection H as <-. injection H' as <-. destruct (parts_like g ps ps' Hps ms ms' Hms Hms') as (Hlk & Hx).
  assert (Hn: List.length ps' = n) by (unfold n; clear -Hps; induction Hps; cbn; congruence).
  unfold saved, set_clusters. cbn [mx_models]. unfold mix_load_state_dict.
  set (tail := [([Nm "mixture_weights"], VWts (fst wc)); ([Nm "centroids"], VCen (snd wc))]).
  rewrite no_unexpected_names.
  2:{ intros k Hk. unfold mix_state_dict in *. cbn [mx_models] in *. rewrite map_app in *. rewrite <- (models_names_eq ms 0 ms' Hlk). assumption. }
  cbn [bind mx_models]. unfold mix_state_dict. cbn [mx_models mx_weights mx_cents]. fold tail.
  assert (Hload: load_models (models_entries 0 ms ++ tail) 0 ms' = Ok (map (fun mm => restored (fst mm) (snd mm)) (combine ms ms'))).
  { apply (load_models_restored tail ms) with (pre := []); auto. }
  rewrite Hload. cbn [bind]. unfold load_weights, load_cents.
  assert (Hf: forall k, hd_error k <> Some (Nm "models") -> find_key (models_entries 0 ms ++ tail) k = find_key tail k).
  { intros k Hk. apply find_app_none, find_none. intros Hin. apply models_names in Hin. contradiction. }
  rewrite !Hf by discriminate. unfold tail. cbn [find_key]. destruct (name_dec [Nm "mixture_weights"] [Nm "mixture_weights"]); [|congruence].
  destruct (name_dec [Nm "centroids"] [Nm "mixture_weights"]) as [E|_]; [discriminate E|]. destruct (name_dec [Nm "centroids"] [Nm "centroids"]); [|congruence].
  rewrite map_length, seq_length. cbn [shape]. rewrite Hn. unfold same_shape. cbn [eqb_list]. rewrite andb_true_r. split.
  - intros Hw Hc. rewrite Hw, Hc, Nat.eqb_refl, eqb_list_refl. cbn [guard bind]. eexists. split; [reflexivity|].
    assert (Hnet: mapM (network cls) (map (fun mm => restored (fst mm) (snd mm)) (combine ms ms')) = mapM (network cls) ms).
    { clear -Hx. induction Hx as [|m m' ms ms' Hm _ IH]; [reflexivity|]. cbn [combine map mapM fst snd]. rewrite IH, restored_network by exact Hm. reflexivity. }
    split; intros; [unfold mixmod_forward|unfold mixmod_sample]; cbn [mx_models mx_cents mx_weights]; rewrite Hnet; reflexivity.
  - intros Hno. destruct (Nat.eqb_spec (List.length (fst wc)) n) as [Hw|Hw]; [|reflexivity]. cbn [guard bind].
    destruct (eqb_list (shape (snd wc)) [n; nval (g_F g)]) eqn:Ec; [|reflexivity]. exfalso. apply eqb_list_eq in Ec. auto.
Qed.

(** [fit] is a k-means clustering: centroids with one row per cluster and one column per number of a row. *)
Definition clusters_of (n D : nat) (fit : list (list R) -> list nat * tensor R) (rows : list (list R)) : Prop :=
  shape (snd (fit rows)) = [n; D] /\ fst (fit rows) <> [] /\ Forall (fun k => k < n) (fst (fit rows)).

Lemma weights_length preds : preds <> [] -> List.length (init_weights preds) = S (list_max preds).
Proof. intros H. unfold init_weights. rewrite map_length. unfold Cluster.bincount. destruct preds; [congruence|]. rewrite map_length. apply seq_length. Qed.
Lemma cents_shape tc c : shape (init_centroids tc c) = shape c.
Proof. destruct tc; reflexivity. Qed.

(** A mixture of networks over data with several channels cannot be loaded; nor can one whose last cluster is empty. *)
Theorem C70_mixture_refuted g ps ps' ew ec ew' ec' limit tc fit rows (m m' : mix_module V X) :
  same_parts ps ps' -> new_mixture g ps ew ec = Ok m -> new_mixture g ps' ew' ec' = Ok m' ->
  clusters_of (List.length ps) (nval (g_C g) * nval (g_F g)) fit rows -> 0 < nval (g_F g) ->
  (nval (g_C g) <> 1 \/ ~ In (List.length ps - 1) (fst (fit rows))) ->
  exists wc, initialize limit tc fit (Some rows) None = Ok wc /\ mix_load_state_dict (mix_state_dict (set_clusters m wc)) m' = Err RuntimeErr.
Proof.
  intros Hps H H' (Hs & Hne & Hlt) HF Hbad.
  assert (Hi: initialize limit tc fit (Some rows) None = Ok (init_weights (fst (fit rows)), init_centroids tc (snd (fit rows)))).
  { unfold initialize. cbn [bind]. destruct (fit rows). reflexivity. }
  eexists. split; [exact Hi|]. apply (C70_mixture_partial (fun _ => 0%R) (fun _ _ => Err ValueErr) g ps ps' ew ec ew' ec' limit tc fit (Some rows) None _ m m' Hps H H' Hi).
  cbn [fst snd]. rewrite weights_length, cents_shape, Hs by exact Hne. intros (Hw & Hc). injection Hc as Hc. destruct Hbad as [Hb|Hb].
  - apply Hb. nia.
  - apply Hb. rewrite <- Hw. cbn [Nat.sub]. rewrite Nat.sub_0_r. clear -Hne. generalize (fst (fit rows)) Hne. intros l Hl.
    clear Hne. induction l as [|x l IH]; [congruence|]. destruct l as [|y l]; [left; cbn; lia|].
    assert (Hy: In (list_max (y :: l)) (y :: l)) by (apply IH; discriminate).
    change (list_max (x :: y :: l)) with (Nat.max x (list_max (y :: l))). destruct (Nat.max_spec x (list_max (y :: l))) as [(_ & ->)|(_ & ->)]; [right; exact Hy|left; reflexivity].
Qed.
End Mixtures.

(** * Cases *)
(** The leaf parameters of a network over coins, and other choices for the second network *)
Definition ex_par (p : R) (C F L Rn : nat) : list (string * tensor num) := [("probs", mkT [1; C; F; L; Rn] (fun _ => Fin p))].
Definition ex_cls (F C L Rn : nat) : leaf_class nat unit := fun par _ =>
  match par with [(_, t)] => Ok (coin (fun key => toR (get t (0 :: key))) F C L Rn) | _ => Err ValueErr end.
Definition ex_other_perm (r : nat) : list nat := [1; 0; 3; 4; 2].
Definition ex_other : oracle nat :=
  mkOracle (fun i idx => Fin (- INR (i + list_sum idx))) grow grow grow [2; 1; 1; 1] ex_other_perm (fun F C L R => Ok (coin third F C L R)).
Lemma ex_class p p' C F L Rn : same_class (ex_par p C F L Rn) (ex_par p' C F L Rn).
Proof. split; [|reflexivity]. repeat constructor; auto. Qed.
Lemma ex_other_td : oracle_ok ex_td_g ex_other.
Proof.
  destruct ex_td_oracle. split; cbn [ex_other o_logits o_top o_mix o_root o_sizes o_perm o_leaf] in *; auto.
  - intros r Hr. unfold perm_len, plain. cbn [ex_td_g plain g_struct g_R g_F]. rewrite !nval_nat. unfold ex_other_perm. perms.
Qed.
Lemma ex_build g o : assert_valid g = Ok tt -> g_card g = None -> oracle_ok g o -> g_drop g = VFloat (Fin 0) -> g_depth g = VInt 2 ->
  exists E : einet nat, build g o = Ok E.
Proof.
  intros Hv Hc Ho Hd Hz. apply build_succeeds; auto.
  - rewrite Hd. exists 0%R. split; [constructor|lra].
  - rewrite Hz. cbn. lia.
  - intros _. rewrite Hz. cbn. lia.
Qed.
Lemma ex_td_valid : assert_valid ex_td_g = Ok tt.
Proof. apply plain_valid; try lia; try lra; try congruence. simpl; lia. Qed.
Lemma ex_bu_valid : assert_valid ex_bu_g = Ok tt.
Proof. apply plain_valid; try lia; try lra; try congruence. simpl; lia. Qed.

(** Saving one network and loading it into another one with other permutations, group sizes and weights *)
Example C70_ex : exists m m', new_module ex_td_g ex_td_o (ex_par (1 / 4) 2 5 2 2) tt = Ok m /\ new_module ex_td_g ex_other (ex_par (1 / 2) 2 5 2 2) tt = Ok m' /\
  find_key (state_dict m) [Nm "leaf"; Nm "base_leaf"; Nm "probs"] <> find_key (state_dict m') [Nm "leaf"; Nm "base_leaf"; Nm "probs"] /\
  (exists r, load_state_dict (state_dict m) m' = Ok r /\ state_dict r = state_dict m /\
    (forall data ms, module_forward (ex_cls 5 2 2 2) r data ms = module_forward (ex_cls 5 2 2 2) m data ms) /\
    (forall a, module_sample (ex_cls 5 2 2 2) r a = module_sample (ex_cls 5 2 2 2) m a)) /\
  load_state_dict [] m = Err RuntimeErr.
Proof.
  destruct (ex_build ex_td_g ex_td_o ex_td_valid eq_refl ex_td_oracle eq_refl eq_refl) as (E & HE).
  destruct (ex_build ex_td_g ex_other ex_td_valid eq_refl ex_other_td eq_refl eq_refl) as (E' & HE').
  exists (mkMod E (ex_par (1 / 4) 2 5 2 2) tt), (mkMod E' (ex_par (1 / 2) 2 5 2 2) tt).
  assert (H: new_module ex_td_g ex_td_o (ex_par (1 / 4) 2 5 2 2) tt = Ok (mkMod E (ex_par (1 / 4) 2 5 2 2) tt)) by (unfold new_module; rewrite HE; reflexivity).
  assert (H': new_module ex_td_g ex_other (ex_par (1 / 2) 2 5 2 2) tt = Ok (mkMod E' (ex_par (1 / 2) 2 5 2 2) tt)) by (unfold new_module; rewrite HE'; reflexivity).
  assert (Hb: forall o E0, build ex_td_g o = Ok E0 -> leaf_prefix (e_leaf (E0 : einet nat)) = [Nm "leaf"; Nm "base_leaf"]).
  { intros o E0 H0. unfold build in H0. apply bind_ok in H0 as ([] & _ & H0). cbn [ex_td_g plain g_struct] in H0. unfold build_top_down in H0.
    do 3 (apply bind_ok in H0 as (? & _ & H0)). apply bind_ok in H0 as (lf & Hl & H0). do 2 (apply bind_ok in H0 as (? & _ & H0)). injection H0 as <-.
    cbn [e_leaf]. unfold build_input in Hl. apply bind_ok in Hl as (b & _ & Hl). destruct (_ =? 1); injection Hl as <-; reflexivity. }
  split; [exact H|]. split; [exact H'|]. split; [|split].
  - unfold state_dict. cbn [md_net md_par]. rewrite (Hb _ _ HE), (Hb _ _ HE'). cbn [ex_par par_entries map fst snd app find_key].
    destruct (name_dec _ _) as [_|N]; [|congruence]. intros Heq. injection Heq as Heq. apply (f_equal (fun f => f [])) in Heq. injection Heq as Heq. lra.
  - exact (C70_restored_partial (ex_cls 5 2 2 2) ex_td_g ex_td_o ex_other _ _ tt _ _ eq_refl (ex_class (1 / 4) (1 / 2) 2 5 2 2) H H').
  - destruct (load_state_dict [] _) as [r|e] eqn:El; [|f_equal; eapply (C70_strict [] (mkMod E (ex_par (1 / 4) 2 5 2 2) tt)); [repeat constructor; auto|exact El]].
    exfalso. destruct (C70_strict [] (mkMod E (ex_par (1 / 4) 2 5 2 2) tt)) as (_ & (Hs & _) & _); [repeat constructor; auto|].
    specialize (Hs (ex_intro _ r El) [Nm "leaf"; Nm "base_leaf"; Nm "probs"]). unfold state_dict in Hs. cbn [md_net md_par] in Hs. rewrite (Hb _ _ HE) in Hs.
    cbn [ex_par par_entries map fst snd app find_key] in Hs. destruct (name_dec _ _) as [_|N]; [discriminate Hs|congruence].
Qed.

(** A PiecewiseLinear network that works, and does not after loading *)
Example C70_piecewise_ex : exists m m' r y, new_module ex_td_g (ex_pl_o 1) [] (Some (ex_pl_xs 1, ex_pl_ys 1)) = Ok m /\
  new_module ex_td_g ex_other [] None = Ok m' /\ load_state_dict (state_dict m) m' = Ok r /\
  module_forward (pl_class 5 2 2 2 3) m (two_rows 2 5 ex_missing) None = Ok y /\ module_forward (pl_class 5 2 2 2 3) r (two_rows 2 5 ex_missing) None = Err ValueErr.
Proof.
  destruct (ex_pl 1) as (E & HA & HF & HC & HK & HL); [lra|].
  destruct (ex_build ex_td_g ex_other ex_td_valid eq_refl ex_other_td eq_refl eq_refl) as (E' & HE').
  destruct (C70_piecewise_refuted ex_td_g (ex_pl_o 1) ex_other [] [] 5 2 2 2 3 (ex_pl_xs 1) (ex_pl_ys 1) (mkMod E [] (Some (ex_pl_xs 1, ex_pl_ys 1))) (mkMod E' [] None))
    as (r & Hr & Hf & _).
  - reflexivity.
  - split; [constructor|reflexivity].
  - unfold new_module. rewrite (ac_build _ _ _ HA). reflexivity.
  - unfold new_module. rewrite HE'. reflexivity.
  - destruct (C05_forward_total nat ex_td_g (ex_pl_o 1) E 2 (two_rows 2 5 ex_missing) HA) as (y & Hy & _).
    { split; [right; left; cbn; congruence|]. intros n c f v _ _ _ Hv. rewrite HL. cbn [lf_supp pl_leaf]. apply Nat.ltb_lt.
      assert (v < 2) by (apply (ex_missing_lt n c f); exact Hv). lia. }
    exists (mkMod E [] (Some (ex_pl_xs 1, ex_pl_ys 1))), (mkMod E' [] None), r, y.
    split; [unfold new_module; rewrite (ac_build _ _ _ HA); reflexivity|]. split; [unfold new_module; rewrite HE'; reflexivity|]. split; [exact Hr|].
    split; [|apply Hf]. unfold module_forward, network. cbn [md_par md_x md_net pl_class bind].
    replace (with_leaf E (pl_leaf 5 2 2 2 3 (ex_pl_xs 1) (ex_pl_ys 1))) with E; [exact Hy|].
    destruct (build_inv _ _ E (ac_card _ _ _ HA) (ac_oracle _ _ _ HA) (ac_build _ _ _ HA)) as (HO & _ & _ & HR & _).
    assert (HL2: e_L E = 2 /\ e_R E = 2).
    { split; [|exact HR]. pose proof (ac_build _ _ _ HA) as HB. unfold build in HB. apply bind_ok in HB as ([] & _ & HB). cbn [ex_td_g plain g_struct] in HB.
      unfold build_top_down in HB. do 6 (apply bind_ok in HB as (? & _ & HB)). injection HB as <-. reflexivity. }
    destruct HL2 as (HL2 & HR2). rewrite HF, HC, HL2, HR2 in HL. rewrite <- HL. unfold with_leaf, leafE. destruct E as [? ? ? ? ? lf ? ? ? ?]. cbn. destruct lf; reflexivity.
Qed.

(** Mixtures of two networks: one that is restored, one over two channels, and one with an empty last cluster *)
Definition ex_fit (D : nat) (preds : list nat) (rows : list (list R)) : list nat * tensor R := (preds, mkT [2; D] (fun idx => INR (list_sum idx))).
Definition ex_parts (C : nat) (p : R) (o : oracle nat) : list (oracle nat * list (string * tensor num) * unit) :=
  [(o, ex_par p C 5 2 2, tt); (ex_other, ex_par (1 / 3) C 5 2 2, tt)].
Lemma ex_parts_same C p p' o o' : List.length (o_perm o 0) = 5 -> List.length (o_perm o' 0) = 5 -> same_parts (ex_parts C p o) (ex_parts C p' o').
Proof.
  intros H H'. constructor; [|constructor; [|constructor]]; (split; [|split; [apply ex_class|reflexivity]]); [congruence|reflexivity].
Qed.
Lemma ex_mixture g C p o : oracle_ok g o -> oracle_ok g ex_other -> assert_valid g = Ok tt -> g_card g = None -> g_drop g = VFloat (Fin 0) -> g_depth g = VInt 2 ->
  exists m, new_mixture g (ex_parts C p o) INR (fun _ => 0%R) = Ok m.
Proof.
  intros Ho Ho' Hv Hc Hd Hz. destruct (ex_build g o Hv Hc Ho Hd Hz) as (E & HE). destruct (ex_build g ex_other Hv Hc Ho' Hd Hz) as (E' & HE').
  unfold new_mixture, ex_parts. cbn [mapM]. unfold new_module. rewrite HE, HE'. cbn [bind]. eexists. reflexivity.
Qed.
Lemma ex_other_bu : oracle_ok ex_bu_g ex_other.
Proof.
  destruct ex_bu_oracle. split; cbn [ex_other o_logits o_top o_mix o_root o_sizes o_perm o_leaf] in *; auto.
  - intros r Hr. unfold perm_len, plain. cbn [ex_bu_g plain g_struct g_R g_F]. rewrite !nval_nat. unfold ex_other_perm. perms.
Qed.
Example C70_mixture_ex :
  (exists m m' wc, new_mixture ex_bu_g (ex_parts 1 (1 / 4) ex_bu_o) INR (fun _ => 0%R) = Ok m /\ new_mixture ex_bu_g (ex_parts 1 (1 / 2) ex_other) INR (fun _ => 0%R) = Ok m' /\
     initialize 30 None (ex_fit 5 [1; 0; 1]) (Some [[]; []; []]) None = Ok wc /\
     exists r, mix_load_state_dict (mix_state_dict (set_clusters m wc)) m' = Ok r /\ mx_weights r = mx_weights (set_clusters m wc)) /\
  (exists m m' wc, new_mixture ex_td_g (ex_parts 2 (1 / 4) ex_td_o) INR (fun _ => 0%R) = Ok m /\ new_mixture ex_td_g (ex_parts 2 (1 / 2) ex_other) INR (fun _ => 0%R) = Ok m' /\
     initialize 30 None (ex_fit 10 [1; 0; 1]) (Some [[]; []; []]) None = Ok wc /\ mix_load_state_dict (mix_state_dict (set_clusters m wc)) m' = Err RuntimeErr) /\
  (exists m m' wc, new_mixture ex_bu_g (ex_parts 1 (1 / 4) ex_bu_o) INR (fun _ => 0%R) = Ok m /\ new_mixture ex_bu_g (ex_parts 1 (1 / 2) ex_other) INR (fun _ => 0%R) = Ok m' /\
     initialize 30 None (ex_fit 5 [0; 0; 0]) (Some [[]; []; []]) None = Ok wc /\ mix_load_state_dict (mix_state_dict (set_clusters m wc)) m' = Err RuntimeErr).
Proof.
  assert (Hbu: forall p o, oracle_ok ex_bu_g o -> exists m, new_mixture ex_bu_g (ex_parts 1 p o) INR (fun _ => 0%R) = Ok m).
  { intros p o Ho. apply ex_mixture; auto using ex_other_bu, ex_bu_valid. }
  assert (Htd: forall p o, oracle_ok ex_td_g o -> exists m, new_mixture ex_td_g (ex_parts 2 p o) INR (fun _ => 0%R) = Ok m).
  { intros p o Ho. apply ex_mixture; auto using ex_other_td, ex_td_valid. }
  destruct (Hbu (1 / 4)%R ex_bu_o ex_bu_oracle) as (m & Hm). destruct (Hbu (1 / 2)%R ex_other ex_other_bu) as (m' & Hm').
  destruct (Htd (1 / 4)%R ex_td_o ex_td_oracle) as (t & Ht). destruct (Htd (1 / 2)%R ex_other ex_other_td) as (t' & Ht').
  assert (Hlt: forall D preds rows, preds <> [] -> Forall (fun k => k < 2) preds -> clusters_of 2 D (ex_fit D preds) rows).
  { intros D preds rows H1 H2. split; [reflexivity|]. split; auto. }
  split; [|split].
  - exists m, m'. set (fit := ex_fit 5 [1; 0; 1]).
    assert (Hi: initialize 30 None fit (Some [[]; []; []]) None = Ok (init_weights [1; 0; 1], mkT [2; 5] (fun idx => INR (list_sum idx)))) by reflexivity.
    eexists. split; [exact Hm|]. split; [exact Hm'|]. split; [exact Hi|].
    destruct (C70_mixture_partial INR (ex_cls 5 1 2 2) ex_bu_g _ _ INR (fun _ => 0%R) INR (fun _ => 0%R) 30 None fit _ _ _ m m'
      (ex_parts_same 1 (1 / 4) (1 / 2) ex_bu_o ex_other eq_refl eq_refl) Hm Hm' Hi) as (Hok & _).
    destruct Hok as (r & Hr & _); [reflexivity|reflexivity|]. exists r. split; [exact Hr|].
    unfold mix_load_state_dict in Hr. do 2 (apply bind_ok in Hr as (? & _ & Hr)). apply bind_ok in Hr as (w & Hw & Hr). apply bind_ok in Hr as (c & _ & Hr).
    injection Hr as <-. cbn [mx_weights]. unfold load_weights, mix_state_dict in Hw. rewrite find_app_none in Hw.
    + cbn [find_key] in Hw. destruct (name_dec _ _) as [_|N]; [|congruence]. apply bind_ok in Hw as (? & _ & Hw). injection Hw as <-. reflexivity.
    + apply find_none. intros Hin. apply models_names in Hin. discriminate Hin.
  - destruct (C70_mixture_refuted ex_td_g _ _ INR (fun _ => 0%R) INR (fun _ => 0%R) 30 None (ex_fit 10 [1; 0; 1]) [[]; []; []] t t'
      (ex_parts_same 2 (1 / 4) (1 / 2) ex_td_o ex_other eq_refl eq_refl) Ht Ht') as (wc & Hi & Hl).
    + apply Hlt; [discriminate|repeat constructor].
    + cbn. lia.
    + left. cbn. lia.
    + exists t, t', wc. auto.
  - destruct (C70_mixture_refuted ex_bu_g _ _ INR (fun _ => 0%R) INR (fun _ => 0%R) 30 None (ex_fit 5 [0; 0; 0]) [[]; []; []] m m'
      (ex_parts_same 1 (1 / 4) (1 / 2) ex_bu_o ex_other eq_refl eq_refl) Hm Hm') as (wc & Hi & Hl).
    + apply Hlt; [discriminate|repeat constructor].
    + cbn. lia.
    + right. cbn. lia.
    + exists m, m', wc. auto.
Qed.

Print Assumptions C70_restored_partial.
Print Assumptions C70_strict.
Print Assumptions C70_piecewise_refuted.
Print Assumptions C70_mixture_partial.
Print Assumptions C70_mixture_refuted.
