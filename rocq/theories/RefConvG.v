(** The layers of two convolutional circuits of one configuration, side by side: changes and derivatives of their logits. *)
From Coq Require Import List Arith Lia Bool ZArith Reals Lra FunctionalExtensionality.
Import ListNotations.
From Verif Require Import Base RSum Num Tensor Prob Layers Circuit Net RefFwd Leaf RefLeaf Einet Spec ConvPc RefConv RefConvNet RefConvS RefPerturb RefGrad PropPerturb PropGrad.
Local Open Scope R_scope.
Local Arguments Nat.div : simpl never. Local Arguments Nat.modulo : simpl never. Local Arguments Nat.sub : simpl never.
Local Arguments Nat.mul : simpl never. Local Arguments Nat.add : simpl never.

(** * Layers as functions of the sizes of their input *)
Definition cl_us (T : R) (l : clayer) (S H W : nat) : list ulayer :=
  match l with
  | CSum s => [csum_u s T]
  | CProd kh kw => [prod_u S H W kh kw]
  | CSumProd OSumProd s kh kw => [csum_u s T; prod_u (cs_out s) H W kh kw]
  | CSumProd OProdSum s kh kw => [prod_u S H W kh kw; csum_u s T]
  | CSumProd OOther _ _ _ => []
  end.
Definition cl_S (l : clayer) (S : nat) : nat := match l with CSum s | CSumProd _ s _ _ => cs_out s | CProd _ _ => S end.
Definition cl_H (l : clayer) (H : nat) : nat := match l with CSum _ => H | CProd kh _ | CSumProd _ _ kh _ => (H / kh)%nat end.
Definition cl_W (l : clayer) (W : nat) : nat := match l with CSum _ => W | CProd _ kw | CSumProd _ _ _ kw => (W / kw)%nat end.
Fixpoint cls_us (T : R) (ls : list clayer) (S H W : nat) : list ulayer :=
  match ls with [] => [] | l :: ls' => cl_us T l S H W ++ cls_us T ls' (cl_S l S) (cl_H l H) (cl_W l W) end.
Lemma clay_fun l S H W us S' H' W' : clay l S H W us S' H' W' -> (forall T, us T = cl_us T l S H W) /\ S' = cl_S l S /\ H' = cl_H l H /\ W' = cl_W l W.
Proof. intros C. inversion C; subst; cbn; auto; match goal with X : tiles _ _ _ _ _ _ |- _ => apply tiles_div in X as [-> ->] end; auto. Qed.
Lemma clays_fun ls S H W us S' H' W' : clays ls S H W us S' H' W' -> forall T, us T = cls_us T ls S H W.
Proof.
  intros C T. induction C; cbn; auto. destruct (clay_fun _ _ _ _ _ _ _ _ H0) as (-> & -> & -> & ->). f_equal; auto.
Qed.
(** The sum layer of a layer *)
Definition cl_sum (l : clayer) : option csum := match l with CSum s | CSumProd _ s _ _ => Some s | CProd _ _ => None end.
Definition cl_logits (l : clayer) : tensor num := match cl_sum l with Some s => cs_logits s | None => no_logits end.
Definition cl_nodes (l : clayer) : nat := match cl_sum l with Some s => (cs_h s * cs_w s)%nat | None => 0%nat end.

(** * Layers of the same shape *)
Definition trel := tensor num -> tensor num -> Prop.
Definition same_csum (Rel : trel) (s s' : csum) : Prop :=
  cs_in s' = cs_in s /\ cs_out s' = cs_out s /\ cs_h s' = cs_h s /\ cs_w s' = cs_w s /\ Rel (cs_logits s) (cs_logits s').
Definition same_clay (Rel : trel) (l l' : clayer) : Prop :=
  match l, l' with
  | CSum s, CSum s' => same_csum Rel s s'
  | CProd kh kw, CProd kh' kw' => kh' = kh /\ kw' = kw
  | CSumProd o s kh kw, CSumProd o' s' kh' kw' => o' = o /\ same_csum Rel s s' /\ kh' = kh /\ kw' = kw
  | _, _ => False
  end.
Section Two.
Context {V : Type} (Rel : trel) (o o' : coracle V).
Hypothesis HR : forall i s, Rel (co_logits o i s) (co_logits o' i s).
Lemma new_csum_same i cin cout h w : same_csum Rel (new_csum o i cin cout h w) (new_csum o' i cin cout h w).
Proof. repeat split; auto. apply HR. Qed.
Lemma new_sumprod_same i cin cout h w kh kw ord l l' : new_sumprod o i cin cout h w kh kw ord = Ok l -> new_sumprod o' i cin cout h w kh kw ord = Ok l' -> same_clay Rel l l'.
Proof.
  unfold new_sumprod. destruct (guard _ _); [|discriminate]. cbn [bind]. intros E E'.
  destruct ord; injection E as <-; injection E' as <-; cbn [same_clay]; repeat (split; auto using new_csum_same); apply HR.
Qed.
Lemma build_bottom_same ord k : forall chs i h w ls ls', build_bottom o ord k i chs h w = Ok ls -> build_bottom o' ord k i chs h w = Ok ls' -> Forall2 (same_clay Rel) ls ls'.
Proof.
  induction chs as [|c [|c' rest] IH]; intros i h w ls ls' E E'.
  - discriminate.
  - cbn [build_bottom] in E, E'. apply bind_ok in E as (l & El & E). apply bind_ok in E' as (l' & El' & E'). injection E as <-. injection E' as <-.
    constructor; [eapply new_sumprod_same; eauto|constructor].
  - change (build_bottom o ord k i (c :: c' :: rest) h w) with
      (l <- new_sumprod o i c c' h w k k ord ;; ls <- build_bottom o ord k (S i) (c' :: rest) (h / k) (w / k) ;; Ok (l :: ls)) in E.
    change (build_bottom o' ord k i (c :: c' :: rest) h w) with
      (l <- new_sumprod o' i c c' h w k k ord ;; ls <- build_bottom o' ord k (S i) (c' :: rest) (h / k) (w / k) ;; Ok (l :: ls)) in E'.
    apply bind_ok in E as (l & El & E). apply bind_ok in E as (ls1 & Es & E). injection E as <-.
    apply bind_ok in E' as (l' & El' & E'). apply bind_ok in E' as (ls1' & Es' & E'). injection E' as <-.
    constructor; [eapply new_sumprod_same; eauto|eapply IH; eauto].
Qed.
Lemma build_top_same ord chs n : forall i h w acc acc' r r' h1 w1 h1' w1', Forall2 (same_clay Rel) acc acc' ->
  build_top o ord chs n i h w acc = Ok (r, h1, w1) -> build_top o' ord chs n i h w acc' = Ok (r', h1', w1') -> Forall2 (same_clay Rel) r r' /\ h1' = h1 /\ w1' = w1.
Proof.
  induction i as [|i IH]; intros h w acc acc' r r' h1 w1 h1' w1' HA E E'.
  - cbn in E, E'. injection E as <- <- <-. injection E' as <- <- <-. auto.
  - cbn [build_top] in E, E'. apply bind_ok in E as (l & El & E). apply bind_ok in E' as (l' & El' & E'). eapply IH; [|exact E|exact E'].
    constructor; auto. eapply new_sumprod_same; eauto.
Qed.
Lemma build_same g C H W P P' : conv_accepted g C H W o P -> conv_accepted g C H W o' P' ->
  cp_C P' = cp_C P /\ cp_H P' = cp_H P /\ cp_W P' = cp_W P /\ cp_L P' = cp_L P /\ Forall2 (same_clay Rel) (cp_layers P) (cp_layers P').
Proof.
  intros A A'. destruct (build_conv_inv _ _ _ _ _ _ A) as (c0 & rest & EC & E1 & E2 & E3 & E4 & _ & _ & _ & _ & HB).
  destruct (build_conv_inv _ _ _ _ _ _ A') as (c0' & rest' & EC' & E1' & E2' & E3' & E4' & _ & _ & _ & _ & HB').
  rewrite EC in EC'. injection EC' as <- <-. do 4 (split; [congruence|]). destruct (cc_struct g).
  - destruct HB as (acc & h & w & Eb & ->), HB' as (acc' & h' & w' & Eb' & ->).
    assert (F0: Forall2 (same_clay Rel) [CSum (new_csum o 0 (last (cc_channels g) 0%nat) 1 1 1)] [CSum (new_csum o' 0 (last (cc_channels g) 0%nat) 1 1 1)]).
    { constructor; [exact (new_csum_same 0 (last (cc_channels g) 0%nat) 1 1 1)|constructor]. }
    destruct (build_top_same _ _ _ _ _ _ _ _ _ _ _ _ _ _ F0 Eb Eb') as (F & -> & ->). constructor; [cbn; auto|exact F].
  - eapply build_bottom_same; eauto.
  - contradiction.
Qed.
End Two.
Lemma same_clay_next Rel l l' S H W : same_clay Rel l l' -> cl_S l' S = cl_S l S /\ cl_H l' H = cl_H l H /\ cl_W l' W = cl_W l W.
Proof.
  destruct l, l'; cbn; try contradiction; unfold same_csum; intuition congruence.
Qed.

(** * Logits that are close *)
Definition within_t (delta : R) : trel := fun a b => forall idx, inb (shape a) idx -> Rabs (toR (get a idx) - toR (get b idx)) <= delta.
Definition cl_bs (delta : R) (l : clayer) : list R :=
  match l with
  | CSum s => [2 * delta] | CProd _ _ => [0]
  | CSumProd OSumProd _ _ _ => [2 * delta; 0] | CSumProd OProdSum _ _ _ => [0; 2 * delta] | CSumProd OOther _ _ _ => []
  end.
Lemma csum_like delta s s' S H W : csum_ok s S H W -> same_csum (within_t delta) s s' -> ulike 1 (2 * delta) (csum_u s 1) (csum_u s' 1).
Proof.
  intros Hs (E1 & E2 & E3 & E4 & HR). destruct Hs as (F1 & F2 & F3 & PS & PO & (SL & _)).
  split; unfold csum_u; cbn [uDin uDout uSin uSout uK ukids usel uW]; rewrite ?E1, ?E2, ?E3, ?E4; auto.
  intros d oo r k Hd Ho Hr Hk. unfold csum_w. rewrite E1, E4. apply wsoft_near; auto. intros j Hj. apply HR. rewrite SL. rewrite F2, F3 in Hd. rewrite F1 in Hj. rewrite F3.
  cbn [inb]. destruct (flat_split d H W Hd) as (h & w & Hh & Hw & ->). rewrite flat_div, flat_mod by auto. auto.
Qed.
Lemma prod_like S H W kh kw : ulike 1 0 (prod_u S H W kh kw) (prod_u S H W kh kw).
Proof. split; auto. intros. apply near_refl. Qed.
Lemma cl_like delta l l' S H W us S' H' W' : clay l S H W us S' H' W' -> same_clay (within_t delta) l l' -> chain_like 1 (cl_bs delta l) (cl_us 1 l S H W) (cl_us 1 l' S H W).
Proof.
  intros C HS. destruct C as [s S H W Hs|kh kw S H W H' W' Ht|s kh kw S H W H' W' Hs Ht|s kh kw S H W H' W' Ht Hs]; destruct l'; cbn [same_clay] in HS; try contradiction.
  - cbn. split; auto. eapply csum_like; eauto.
  - destruct HS as (-> & ->). cbn. split; auto. apply prod_like.
  - destruct HS as (-> & Q & -> & ->). cbn. split; [eapply csum_like; eauto|]. split; auto. destruct Q as (_ & -> & _). apply prod_like.
  - destruct HS as (-> & Q & -> & ->). cbn. split; [apply prod_like|]. split; auto. eapply csum_like; eauto.
Qed.
Definition cls_bs (delta : R) (ls : list clayer) : list R := flat_map (cl_bs delta) ls.
Lemma cls_like delta ls S H W us S' H' W' : clays ls S H W us S' H' W' -> forall ls', Forall2 (same_clay (within_t delta)) ls ls' ->
  chain_like 1 (cls_bs delta ls) (cls_us 1 ls S H W) (cls_us 1 ls' S H W).
Proof.
  intros C. induction C as [S H W|l ls S H W us S1 H1 W1 us' S2 H2 W2 HL C IH]; intros ls' HF; inversion HF as [|? l' ? ls1 Hl Hr]; subst; [exact I|].
  cbn [cls_us cls_bs flat_map]. apply chain_like_app; [eapply cl_like; eauto|].
  destruct (same_clay_next _ _ _ S H W Hl) as (-> & -> & ->). destruct (clay_fun _ _ _ _ _ _ _ _ HL) as (_ & -> & -> & ->). apply IH; auto.
Qed.
Lemma cl_total delta l S H W us S' H' W' : clay l S H W us S' H' W' -> total (cl_bs delta l) (cl_us 1 l S H W) = 2 * delta * INR (cl_nodes l).
Proof.
  intros C. destruct C as [s S H W Hs|kh kw S H W H' W' Ht|s kh kw S H W H' W' Hs Ht|s kh kw S H W H' W' Ht Hs]; cbn [cl_bs cl_us total]; unfold csum_u, prod_u; cbn [uDout]; unfold cl_nodes; cbn [cl_sum]; try lra.
  cbn [INR]. lra.
Qed.
Lemma cl_bs_length delta l S H W : List.length (cl_bs delta l) = List.length (cl_us 1 l S H W).
Proof. destruct l as [|?|[] ? ? ?]; reflexivity. Qed.
Definition cls_nodes (ls : list clayer) : nat := list_sum (map cl_nodes ls).
Lemma cls_total delta ls S H W us S' H' W' : clays ls S H W us S' H' W' -> total (cls_bs delta ls) (cls_us 1 ls S H W) = 2 * delta * INR (cls_nodes ls).
Proof.
  intros C. induction C as [S H W|l ls S H W us S1 H1 W1 us' S2 H2 W2 HL C IH]; [cbn; lra|]. cbn [cls_us cls_bs flat_map].
  rewrite total_app by apply cl_bs_length. rewrite (cl_total _ _ _ _ _ _ _ _ _ HL). destruct (clay_fun _ _ _ _ _ _ _ _ HL) as (_ & ES & EH & EW). subst. fold (cls_bs delta ls). rewrite IH.
  unfold cls_nodes. cbn [map]. change (list_sum (cl_nodes l :: map cl_nodes ls)) with (cl_nodes l + list_sum (map cl_nodes ls))%nat. rewrite plus_INR. lra.
Qed.

(** * Derivatives *)
Section At.
Variable t0 : R.
Definition cth (W : nat) (dl : list nat -> R) (d o r k : nat) : R := dl [o; k; d / W; d mod W]%nat.
Definition any_t : trel := fun _ _ => True.
Lemma csum_diff (s : R -> csum) dl S H W : csum_ok (s t0) S H W -> (forall t, same_csum any_t (s t0) (s t)) ->
  (forall idx, inb (shape (cs_logits (s t0))) idx -> derivable_pt_lim (fun t => toR (get (cs_logits (s t)) idx)) t0 (dl idx)) ->
  udiff t0 1 (fun t => csum_u (s t) 1) (cth (cs_w (s t0)) dl).
Proof.
  intros (F1 & F2 & F3 & PS & PO & (SL & _)) HS HD.
  split; unfold csum_u; cbn [uDin uDout uSin uSout uK ukids usel uW]; try (intros t; destruct (HS t) as (E1 & E2 & E3 & E4 & _); rewrite ?E1, ?E2, ?E3, ?E4; auto; fail).
  intros d oo r k Hd Ho Hr Hk. unfold csum_w, cth.
  apply (ld_ext t0 (fun t => wsoft (cs_in (s t0)) 1 (fun k => get (cs_logits (s t)) [oo; k; d / cs_w (s t0); d mod cs_w (s t0)]%nat) k)).
  { intros t. destruct (HS t) as (-> & _ & _ & -> & _). reflexivity. }
  apply (wsoft_diff t0 (cs_in (s t0)) (fun t k => get (cs_logits (s t)) [oo; k; d / cs_w (s t0); d mod cs_w (s t0)]%nat) (fun k => dl [oo; k; d / cs_w (s t0); d mod cs_w (s t0)]%nat)); auto.
  intros j Hj. apply HD. rewrite SL. rewrite F2, F3 in Hd. rewrite F1 in Hj. rewrite F3. cbn [inb].
  destruct (flat_split d H W Hd) as (h & w & Hh & Hw & ->). rewrite flat_div, flat_mod by auto. auto.
Qed.
Definition cl_fam (l : R -> clayer) (S H W : nat) : list (R -> ulayer) :=
  map (fun i t => nth i (cl_us 1 (l t) S H W) dummy_u) (seq 0 (List.length (cl_us 1 (l t0) S H W))).
Definition cl_th (l : clayer) (dl : list nat -> R) : list (nat -> nat -> nat -> nat -> R) :=
  match l with
  | CSum s => [cth (cs_w s) dl] | CProd _ _ => [no_th]
  | CSumProd OSumProd s _ _ => [cth (cs_w s) dl; no_th] | CSumProd OProdSum s _ _ => [no_th; cth (cs_w s) dl] | CSumProd OOther _ _ _ => []
  end.
Definition cl_drv (l : R -> clayer) (dl : list nat -> R) : Prop :=
  (forall t, same_clay any_t (l t0) (l t)) /\
  forall idx, inb (shape (cl_logits (l t0))) idx -> derivable_pt_lim (fun t => toR (get (cl_logits (l t)) idx)) t0 (dl idx).
Definition the_sum (l : clayer) : csum := match cl_sum l with Some s => s | None => mkCS 0 0 0 0 no_logits end.
Lemma cl_moves l dl S H W us S' H' W' : clay (l t0) S H W us S' H' W' -> cl_drv l dl ->
  chain_diff t0 1 (cl_fam l S H W) (cl_th (l t0) dl) /\ forall t, at_ (cl_fam l S H W) t = cl_us 1 (l t) S H W.
Proof.
  intros C (HS & HD). remember (l t0) as l0 eqn:E0.
  assert (DS: forall s0, cl_sum l0 = Some s0 -> forall S H W, csum_ok s0 S H W -> (forall t, same_csum any_t s0 (the_sum (l t))) -> udiff t0 1 (fun t => csum_u (the_sum (l t)) 1) (cth (cs_w s0) dl)).
  { intros s0 Es S0 H0 W0 Hok Hsm. assert (Et: the_sum (l t0) = s0) by (unfold the_sum; rewrite <- E0, Es; reflexivity).
    rewrite <- Et in Hok, Hsm |- *. apply (csum_diff (fun t => the_sum (l t)) dl S0 H0 W0 Hok Hsm).
    intros idx Hi. apply (dlim_ext t0 (fun t => toR (get (cl_logits (l t)) idx))).
    - intros t. unfold cl_logits, the_sum. destruct (cl_sum (l t)); reflexivity.
    - apply HD. unfold cl_logits. rewrite Es. rewrite Et in Hi. exact Hi. }
  destruct C as [s S H W Hs|kh kw S H W H' W' Ht|s kh kw S H W H' W' Hs Ht|s kh kw S H W H' W' Ht Hs]; unfold cl_fam; rewrite <- E0; cbn [cl_us List.length seq map cl_th chain_diff at_].
  - assert (El: l = fun t => CSum (the_sum (l t))). { apply functional_extensionality. intros t. specialize (HS t). destruct (l t); try contradiction. reflexivity. }
    assert (Hsm: forall t, same_csum any_t s (the_sum (l t))). { intros t. specialize (HS t). destruct (l t); try contradiction. exact HS. }
    set (f := fun t => the_sum (l t)) in *. change (fun t => CSum (the_sum (l t))) with (fun t => CSum (f t)) in El. clearbody f. subst l. cbn [cl_us nth]. split; [|reflexivity]. split; auto.
    apply (DS s eq_refl S H W); auto.
  - assert (El: l = fun t => CProd kh kw). { apply functional_extensionality. intros t. specialize (HS t). destruct (l t); try contradiction. destruct HS as (-> & ->). reflexivity. }
    subst l. cbn [cl_us nth]. split; [|reflexivity]. split; auto. apply fixed_diff.
  - assert (El: l = fun t => CSumProd OSumProd (the_sum (l t)) kh kw). { apply functional_extensionality. intros t. specialize (HS t). destruct (l t); try contradiction. destruct HS as (-> & _ & -> & ->). reflexivity. }
    assert (Hsm: forall t, same_csum any_t s (the_sum (l t))). { intros t. specialize (HS t). destruct (l t); try contradiction. apply HS. }
    set (f := fun t => the_sum (l t)) in *. change (fun t => CSumProd OSumProd (the_sum (l t)) kh kw) with (fun t => CSumProd OSumProd (f t) kh kw) in El. assert (Hf: forall t, same_csum any_t s (f t)) by exact Hsm. clearbody f. subst l. cbn [cl_us nth]. split; [|reflexivity].
    split; [apply (DS s eq_refl S H W); auto|]. split; auto.
    replace (fun t => prod_u (cs_out (f t)) H W kh kw) with (fun _ : R => prod_u (cs_out s) H W kh kw); [apply fixed_diff|].
    apply functional_extensionality. intros t. destruct (Hf t) as (_ & -> & _). reflexivity.
  - assert (El: l = fun t => CSumProd OProdSum (the_sum (l t)) kh kw). { apply functional_extensionality. intros t. specialize (HS t). destruct (l t); try contradiction. destruct HS as (-> & _ & -> & ->). reflexivity. }
    assert (Hsm: forall t, same_csum any_t s (the_sum (l t))). { intros t. specialize (HS t). destruct (l t); try contradiction. apply HS. }
    set (f := fun t => the_sum (l t)) in *. change (fun t => CSumProd OProdSum (the_sum (l t)) kh kw) with (fun t => CSumProd OProdSum (f t) kh kw) in El. clearbody f. subst l. cbn [cl_us nth]. split; [|reflexivity].
    split; [apply fixed_diff|]. split; auto. apply (DS s eq_refl S H' W'); auto.
Qed.
Fixpoint cls_fam (ls : list (R -> clayer)) (S H W : nat) : list (R -> ulayer) :=
  match ls with [] => [] | l :: ls' => cl_fam l S H W ++ cls_fam ls' (cl_S (l t0) S) (cl_H (l t0) H) (cl_W (l t0) W) end.
Fixpoint cls_th (ls : list clayer) (dls : list (list nat -> R)) : list (nat -> nat -> nat -> nat -> R) :=
  match ls, dls with l :: ls', dl :: dls' => cl_th l dl ++ cls_th ls' dls' | _, _ => [] end.
Definition cls_at (ls : list (R -> clayer)) (t : R) : list clayer := map (fun l => l t) ls.
Lemma cls_moves ls : forall dls S H W us S' H' W', Forall2 cl_drv ls dls -> clays (cls_at ls t0) S H W us S' H' W' ->
  chain_diff t0 1 (cls_fam ls S H W) (cls_th (cls_at ls t0) dls) /\ forall t, at_ (cls_fam ls S H W) t = cls_us 1 (cls_at ls t) S H W.
Proof.
  induction ls as [|l ls IH]; intros dls S H W us S' H' W' HF HC; inversion HF as [|? dl ? dls' Hd Hr]; subst; [split; [exact I|reflexivity]|].
  cbn [cls_at map] in HC. inversion HC as [|? ? ? ? ? us1 S1 H1 W1 us2 ? ? ? C1 C2]; subst.
  destruct (cl_moves l dl _ _ _ _ _ _ _ C1 Hd) as (M1 & M2). destruct (clay_fun _ _ _ _ _ _ _ _ C1) as (_ & -> & -> & ->).
  destruct (IH dls' _ _ _ _ _ _ _ Hr C2) as (M3 & M4). cbn [cls_fam cls_at map cls_th cls_us]. split; [apply chain_diff_app; auto|].
  intros t. unfold at_. rewrite map_app. f_equal; [apply M2|]. fold (at_ (cls_fam ls (cl_S (l t0) S) (cl_H (l t0) H) (cl_W (l t0) W)) t). rewrite M4.
  destruct Hd as (Hd & _). destruct (same_clay_next _ _ _ S H W (Hd t)) as (-> & -> & ->). reflexivity.
Qed.
End At.

(** * Coefficients of the logits *)
Definition cl_cof (l : clayer) (cs : list cof) : cof :=
  match l with CSumProd OProdSum _ _ _ => nth 1 cs no_cof | CProd _ _ | CSumProd OOther _ _ _ => no_cof | _ => nth 0 cs no_cof end.
Definition cl_G (l : clayer) (cs : list cof) (idx : list nat) : R :=
  match cl_sum l, idx with Some s, [o; k; h; w] => cl_cof l cs (h * cs_w s + w)%nat o 0%nat k | _, _ => 0 end.
Fixpoint cls_G (ls : list clayer) (S H W : nat) (cs : list cof) : list (list nat -> R) :=
  match ls with [] => [] | l :: ls' => cl_G l cs :: cls_G ls' (cl_S l S) (cl_H l H) (cl_W l W) (skipn (List.length (cl_us 1 l S H W)) cs) end.
Lemma rsum_flat H W (f : nat -> R) : rsum (H * W) f = rsum H (fun h => rsum W (fun w => f (h * W + w)%nat)).
Proof. apply rsum_mul. Qed.
Lemma csum_sum s O S (f : nat -> nat -> nat -> R) : isum [O; S; cs_h s; cs_w s] (fun idx => match idx with [o; k; h; w] => f (h * cs_w s + w)%nat o k | _ => 0 end) =
  rsum (cs_h s * cs_w s) (fun d => rsum O (fun o => rsum S (fun k => f d o k))).
Proof.
  cbn [isum]. rewrite (rsum_flat (cs_h s) (cs_w s)).
  rewrite (rsum_ext O _ (fun o => rsum (cs_h s) (fun h => rsum (cs_w s) (fun w => rsum S (fun k => f (h * cs_w s + w)%nat o k))))).
  2:{ intros o _. rewrite rsum_swap. apply rsum_ext. intros h _. apply rsum_swap. }
  rewrite rsum_swap. apply rsum_ext. intros h _. apply rsum_swap.
Qed.
Lemma cl_dot l S H W us S' H' W' cs dl : clay l S H W us S' H' W' -> List.length cs = List.length (cl_us 1 l S H W) ->
  udots (cl_us 1 l S H W) 0 cs (cl_th l dl) = isum (shape (cl_logits l)) (fun idx => cl_G l cs idx * dl idx).
Proof.
  assert (LS: forall s S H W c, csum_ok s S H W -> udot (csum_u s 1) 0 c (cth (cs_w s) dl) =
    isum (shape (cs_logits s)) (fun idx => match idx with [o; k; h; w] => c (h * cs_w s + w)%nat o 0%nat k | _ => 0 end * dl idx)).
  { intros s S0 H0 W0 c (F1 & F2 & F3 & _ & _ & (SL & _)). rewrite SL, <- F1, <- F2, <- F3. unfold udot, csum_u. cbn [uDout uSout uK].
    rewrite <- (csum_sum s (cs_out s) (cs_in s) (fun d o k => c d o 0%nat k * cth (cs_w s) dl d o 0%nat k)). apply isum_ext. intros idx Hi.
    destruct idx as [|o [|k [|h [|w [|]]]]]; try (cbn in Hi; tauto). destruct Hi as (_ & _ & Hh & Hw & _). unfold cth. rewrite flat_div, flat_mod by auto. reflexivity. }
  intros C HL. unfold cl_logits, cl_G. destruct C as [s S H W Hs|kh kw S H W H' W' Ht|s kh kw S H W H' W' Hs Ht|s kh kw S H W H' W' Ht Hs]; cbn [cl_us cl_th cl_sum cl_cof List.length] in *.
  - destruct cs as [|c [|]]; try discriminate HL. cbn [udots nth]. rewrite (LS s S H W c Hs). ring.
  - destruct cs as [|c [|]]; try discriminate HL. cbn [udots]. rewrite udot_none. cbn. ring.
  - destruct cs as [|c [|c2 [|]]]; try discriminate HL. cbn [udots nth]. rewrite udot_none. rewrite (LS s S H W c Hs). ring.
  - destruct cs as [|c [|c2 [|]]]; try discriminate HL. cbn [udots nth]. rewrite udot_none. rewrite (LS s S H' W' c2 Hs). ring.
Qed.
Lemma cl_th_length l dl S H W : List.length (cl_th l dl) = List.length (cl_us 1 l S H W).
Proof. destruct l as [|?|[] ? ? ?]; reflexivity. Qed.
Fixpoint cdots (ls : list clayer) (Gs dls : list (list nat -> R)) : R :=
  match ls, Gs, dls with
  | l :: ls', G :: Gs', dl :: dls' => isum (shape (cl_logits l)) (fun idx => G idx * dl idx) + cdots ls' Gs' dls'
  | _, _, _ => 0
  end.
Lemma cl_G_first l S H W cs : cl_G l (firstn (List.length (cl_us 1 l S H W)) cs) = cl_G l cs.
Proof.
  apply functional_extensionality. intros idx. unfold cl_G, cl_cof. destruct l as [|?|[] ? ? ?]; cbn [cl_sum cl_us List.length]; destruct cs as [|a [|b cs]]; reflexivity.
Qed.
Lemma cls_dot ls : forall S H W us S' H' W' cs dls, clays ls S H W us S' H' W' -> List.length cs = List.length (cls_us 1 ls S H W) -> List.length dls = List.length ls ->
  udots (cls_us 1 ls S H W) 0 cs (cls_th ls dls) = cdots ls (cls_G ls S H W cs) dls.
Proof.
  induction ls as [|l ls IH]; intros S H W us S' H' W' cs [|dl dls] HC Hl Hd; try discriminate Hd; [reflexivity|].
  inversion HC as [|? ? ? ? ? us1 S1 H1 W1 us2 ? ? ? C1 C2]; subst. destruct (clay_fun _ _ _ _ _ _ _ _ C1) as (_ & -> & -> & ->).
  cbn [cls_us cls_th cls_G cdots] in *. rewrite app_length in Hl. rewrite udots_app by (try apply cl_th_length; lia). f_equal.
  - rewrite (cl_dot _ _ _ _ _ _ _ _ _ dl C1) by (rewrite firstn_length; lia). rewrite cl_G_first. reflexivity.
  - injection Hd as Hd. apply (IH _ _ _ _ _ _ _ _ _ C2); auto. rewrite skipn_length. lia.
Qed.

(** * Size of the coefficients *)
Definition cl_good (l : clayer) (G : list nat -> R) : Prop :=
  (forall idx, inb (shape (cl_logits l)) idx -> Rabs (G idx) <= 1) /\
  (forall s, cl_sum l = Some s -> forall o h w, (o < cs_out s)%nat -> (h < cs_h s)%nat -> (w < cs_w s)%nat -> rsum (cs_in s) (fun k => G [o; k; h; w]) = 0) /\
  isum (shape (cl_logits l)) (fun idx => Rabs (G idx)) <= 2 * INR (cl_nodes l).
Lemma csum_good s S H W c m : csum_ok s S H W -> m 0%nat = 1 -> fair 1 m (csum_u s 1) c ->
  let G := fun idx => match idx with [o; k; h; w] => c (h * cs_w s + w)%nat o 0%nat k | _ => 0 end in
  (forall idx, inb (shape (cs_logits s)) idx -> Rabs (G idx) <= 1) /\
  (forall o h w, (o < cs_out s)%nat -> (h < cs_h s)%nat -> (w < cs_w s)%nat -> rsum (cs_in s) (fun k => G [o; k; h; w]) = 0) /\
  isum (shape (cs_logits s)) (fun idx => Rabs (G idx)) <= 2 * INR (cs_h s * cs_w s).
Proof.
  intros (F1 & F2 & F3 & _ & _ & (SL & _)) Hm (a & Ha & Hf) G. rewrite SL, <- F1, <- F2, <- F3. unfold csum_u in Ha, Hf. cbn [uDout uSout uK] in Ha, Hf.
  assert (L0: (0 < 1)%nat) by lia. split; [|split].
  - intros idx Hi. destruct idx as [|o [|k [|h [|w [|]]]]]; try (cbn in Hi; tauto). destruct Hi as (Ho & Hk & Hh & Hw & _). pose proof (flat_lt h w _ _ Hh Hw) as Hd. cbn [G].
    eapply Rle_trans; [apply (Hf _ o 0%nat Hd Ho L0); auto|]. rewrite <- Hm. apply (shares_le _ _ _ _ _ _ _ _ Ha Hd Ho L0).
  - intros o h w Ho Hh Hw. cbn [G]. apply (Hf (h * cs_w s + w)%nat o 0%nat (flat_lt h w _ _ Hh Hw) Ho L0).
  - rewrite (isum_ext _ _ (fun idx => match idx with [o; k; h; w] => Rabs (c (h * cs_w s + w)%nat o 0%nat k) | _ => 0 end)).
    2:{ intros idx Hi. destruct idx as [|o [|k [|h [|w [|]]]]]; try (cbn in Hi; tauto). }
    rewrite (csum_sum s (cs_out s) (cs_in s) (fun d o k => Rabs (c d o 0%nat k))).
    assert (M1: rsum 1 m = 1) by (rewrite rsum_S, rsum_0; lra).
    pose proof (node_total (cs_h s * cs_w s) (cs_out s) 1 (cs_in s) c a m Ha M1 ltac:(intros d o r Hd Ho Hr; apply (Hf d o r Hd Ho Hr))) as T.
    eapply Rle_trans; [|exact T]. right. apply rsum_ext. intros d _. apply rsum_ext. intros o _. rewrite rsum_S, rsum_0. lra.
Qed.
Lemma cl_fair_good l S H W us S' H' W' cs m : clay l S H W us S' H' W' -> m 0%nat = 1 -> all_fair 1 m (cl_us 1 l S H W) cs -> cl_good l (cl_G l cs).
Proof.
  intros C Hm Hf.
  assert (SG: forall s c S H W, cl_sum l = Some s -> cl_cof l cs = c -> csum_ok s S H W -> fair 1 m (csum_u s 1) c -> cl_good l (cl_G l cs)).
  { intros s c S0 H0 W0 Es Ec Hok Hfa. destruct (csum_good s S0 H0 W0 c m Hok Hm Hfa) as (G1 & G2 & G3).
    unfold cl_good, cl_logits, cl_nodes, cl_G. rewrite Es, Ec. split; [exact G1|]. split; [|exact G3]. intros s' Es'. injection Es' as <-. exact G2. }
  destruct C as [s S H W Hs|kh kw S H W H' W' Ht|s kh kw S H W H' W' Hs Ht|s kh kw S H W H' W' Ht Hs]; cbn [cl_us all_fair] in Hf.
  - destruct cs as [|c [|]]; try tauto. apply (SG s c S H W); auto; apply Hf.
  - unfold cl_good, cl_logits, cl_nodes, cl_G. cbn [cl_sum]. split; [|split].
    + intros idx Hi. destruct idx; rewrite Rabs_R0; lra.
    + intros s Es. discriminate.
    + cbn. lra.
  - destruct cs as [|c [|c2 [|]]]; try tauto. apply (SG s c S H W); auto; apply Hf.
  - destruct cs as [|c [|c2 [|]]]; try tauto. apply (SG s c2 S H' W'); auto; apply Hf.
Qed.
Lemma cls_good ls : forall S H W us S' H' W' cs m, clays ls S H W us S' H' W' -> m 0%nat = 1 -> all_fair 1 m (cls_us 1 ls S H W) cs -> Forall2 cl_good ls (cls_G ls S H W cs).
Proof.
  induction ls as [|l ls IH]; intros S H W us S' H' W' cs m HC Hm Hf; [constructor|].
  inversion HC as [|? ? ? ? ? us1 S1 H1 W1 us2 ? ? ? C1 C2]; subst. destruct (clay_fun _ _ _ _ _ _ _ _ C1) as (_ & -> & -> & ->).
  cbn [cls_us] in Hf. apply all_fair_app in Hf as (F1 & F2). cbn [cls_G]. constructor; [|eapply IH; eauto].
  rewrite <- (cl_G_first l S H W). eapply cl_fair_good; eauto.
Qed.
