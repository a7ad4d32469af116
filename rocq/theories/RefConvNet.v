(** A convolutional circuit as a network in the sense of [Net.v]: its construction, forward pass and samples. *)
From Coq Require Import List Arith Lia Bool Reals Lra.
Import ListNotations.
From Verif Require Import Base RSum Num Tensor Prob Layers Circuit Net RefFwd RefSample RefLaw Leaf RefLeaf RefLeafS Einet RefEinetS Diff RefDiff Spec RefSpec RefSpecS RefMulti RefMv ConvPc RefConv.
Local Open Scope R_scope.
Local Arguments Nat.div : simpl never.
Local Arguments Nat.modulo : simpl never.
Local Arguments Nat.sub : simpl never.
Local Arguments Nat.mul : simpl never.
Local Arguments Nat.add : simpl never.
Local Arguments Nat.min : simpl never.
Local Arguments clamp : simpl never.
Local Arguments bdim : simpl never.

(** * Vocabulary *)
(** The leaf class returns leaves of the requested sizes, which are positive, and parameters are finite. *)
Record conv_oracle {V} (o : coracle V) : Prop := {
  cor_leaf : forall F C L Rn lf, co_leaf o F C L Rn = Ok lf ->
    (0 < F /\ 0 < C /\ 0 < L /\ 0 < Rn)%nat /\ lf_F lf = F /\ lf_C lf = C /\ lf_L lf = L /\ lf_R lf = Rn /\ leaf_ok lf;
  cor_logits : forall i s, shape (co_logits o i s) = s /\ forall idx, inb s idx -> isfin (get (co_logits o i s) idx) = true }.
(** A model that the constructor returned for images of C channels of H x W pixels. *)
Record conv_accepted {V} (g : cconfig) (C H W : nat) (o : coracle V) (P : convpc V) : Prop := {
  cac_oracle : conv_oracle o;
  cac_channels : Forall (fun c => 0 < c)%nat (cc_channels g);
  cac_build : build_convpc o g C H W = Ok P }.
(** Batches of images with missing pixels. *)
Definition images {V} (P : convpc V) (N : nat) (x : tensor (option V)) : Prop :=
  shape x = [N; cp_C P; cp_H P; cp_W P] /\
  forall n c h w v, (n < N)%nat -> (c < cp_C P)%nat -> (h < cp_H P)%nat -> (w < cp_W P)%nat ->
    get x [n; c; h; w] = Some v -> lf_supp (cp_leaf P) v = true.
(** The sizes for which the layers fit together. *)
Definition conv_fits (g : cconfig) (H W : nat) : Prop :=
  (2 <= hd 0 (cc_channels g))%nat /\
  match cc_struct g with
  | CBottomUp => ((length (cc_channels g) = 1)%nat \/ cc_order g <> OOther) /\
      Nat.divide (cc_kernel g ^ (length (cc_channels g) - 1)) H /\ Nat.divide (cc_kernel g ^ (length (cc_channels g) - 1)) W
  | CTopDown => cc_order g <> OOther /\ Nat.divide (2 ^ length (cc_channels g)) H /\ Nat.divide (2 ^ length (cc_channels g)) W
  | COther => False
  end.

(** * Construction *)
Section Construct.
Context {V : Type}.
Variable o : coracle V.
Hypothesis Ho : conv_oracle o.

Lemma new_csum_ok i cin cout h w : (0 < cin)%nat -> (0 < cout)%nat -> csum_ok (new_csum o i cin cout h w) cin h w.
Proof.
  intros Hi Hc. unfold csum_ok, new_csum. cbn. repeat split; auto.
  - apply (cor_logits _ Ho).
  - apply (cor_logits _ Ho).
Qed.
Lemma divide_tiles k H : (0 < k)%nat -> (0 < H)%nat -> (H mod k = 0)%nat -> (0 < H / k /\ H = H / k * k)%nat.
Proof. intros Hk HH E. pose proof (Nat.div_mod H k ltac:(lia)). nia. Qed.
Lemma new_sumprod_ok i cin cout h w kh kw ord l : (0 < cin)%nat -> (0 < cout)%nat -> (0 < h)%nat -> (0 < w)%nat ->
  (h mod kh = 0)%nat -> (w mod kw = 0)%nat -> ord <> OOther ->
  new_sumprod o i cin cout h w kh kw ord = Ok l -> exists us, clay l cin h w us cout (h / kh) (w / kw).
Proof.
  intros Hi Hc Hh Hw Eh Ew Hord E. unfold new_sumprod in E.
  destruct (Nat.eqb_spec kh 0); [discriminate|]. destruct (Nat.eqb_spec kw 0); [discriminate|]. cbn [negb andb guard bind] in E.
  assert (T: tiles kh kw h w (h / kh) (w / kw)).
  { destruct (divide_tiles kh h); try lia. destruct (divide_tiles kw w); try lia. unfold tiles. repeat split; auto; lia. }
  destruct ord; [| |congruence]; injection E as <-.
  - eexists. apply (clay_sp (new_csum o i cin cout h w) kh kw cin h w); auto. apply new_csum_ok; auto.
  - eexists. apply (clay_ps (new_csum o i cin cout (h / kh) (w / kw)) kh kw cin h w); auto. apply new_csum_ok; auto.
Qed.

Lemma build_bottom_ok ord k : forall chs i h w ls, Forall (fun c => 0 < c)%nat chs -> (0 < h)%nat -> (0 < w)%nat ->
  ((length chs = 1)%nat \/ ord <> OOther) -> Nat.divide (k ^ (length chs - 1)) h -> Nat.divide (k ^ (length chs - 1)) w ->
  build_bottom o ord k i chs h w = Ok ls -> exists us, clays ls (hd 0%nat chs) h w us 1 1 1.
Proof.
  induction chs as [|c [|c' rest] IH]; intros i h w ls Hpos Hh Hw Hord Dh Dw E.
  - discriminate.
  - cbn [build_bottom] in E. destruct (new_sumprod _ _ _ _ _ _ _ _ _) as [l|] eqn:El; [|discriminate]. injection E as <-.
    inversion Hpos; subst. apply new_sumprod_ok in El as (us & Hl); auto; try lia; try discriminate; try (apply Nat.mod_same; lia).
    rewrite !Nat.div_same in Hl by lia. eexists. cbn [hd]. eapply clays_cons; [exact Hl|constructor].
  - change (build_bottom o ord k i (c :: c' :: rest) h w) with
      (l <- new_sumprod o i c c' h w k k ord ;; ls <- build_bottom o ord k (S i) (c' :: rest) (h / k) (w / k) ;; Ok (l :: ls)) in E.
    destruct (new_sumprod _ _ _ _ _ _ _ _ _) as [l|] eqn:El; [|discriminate]. cbn [bind] in E.
    destruct (build_bottom _ _ _ _ _ _ _) as [ls'|] eqn:Es; [|discriminate]. injection E as <-.
    inversion Hpos as [|? ? Hc Hr]; subst. inversion Hr as [|? ? Hc' _]; subst.
    destruct Hord as [X|Hord]; [cbn in X; lia|].
    assert (Hk: (k <> 0)%nat) by (intros ->; unfold new_sumprod in El; discriminate).
    cbn [length] in Dh, Dw. replace (S (S (length rest)) - 1)%nat with (S (length rest)) in Dh, Dw by lia. cbn [Nat.pow] in Dh, Dw.
    assert (Q: forall z, (0 < z)%nat -> Nat.divide (k * k ^ length rest) z -> (z mod k = 0)%nat /\ (0 < z / k)%nat /\ Nat.divide (k ^ length rest) (z / k)).
    { intros z Hz [q ->]. replace (q * (k * k ^ length rest))%nat with (q * k ^ length rest * k)%nat by ring.
      rewrite Nat.mod_mul, Nat.div_mul by auto. split; auto. split; [nia|]. exists q. auto. }
    destruct (Q h Hh Dh) as (Mh & Ph & Dh'). destruct (Q w Hw Dw) as (Mw & Pw & Dw').
    apply new_sumprod_ok in El as (us & Hl); auto.
    replace (length rest) with (length (c' :: rest) - 1)%nat in Dh', Dw' by (cbn [length]; lia).
    destruct (IH (S i) (h / k)%nat (w / k)%nat ls') as (us' & Hls); auto.
    eexists. cbn [hd]. eapply clays_cons; [exact Hl|exact Hls].
Qed.

Lemma build_top_ok ord chs n : ord <> OOther -> Forall (fun c => 0 < c)%nat chs -> forall i h w acc us, (0 < h)%nat -> (0 < w)%nat -> (i < length chs)%nat ->
  clays acc (nth i chs 0%nat) h w us 1 1 1 ->
  exists acc' us', build_top o ord chs n i h w acc = Ok (acc', h * 2 ^ i, w * 2 ^ i)%nat /\
    clays acc' (nth 0 chs 0%nat) (h * 2 ^ i) (w * 2 ^ i) us' 1 1 1.
Proof.
  intros Hord Hpos. assert (HP: forall j, (j < length chs)%nat -> (0 < nth j chs 0)%nat).
  { intros j Hj. rewrite Forall_forall in Hpos. apply Hpos. apply nth_In. auto. }
  induction i as [|i IH]; intros h w acc us Hh Hw Hi Hc.
  - exists acc, us. cbn [build_top Nat.pow]. rewrite !Nat.mul_1_r. auto.
  - cbn [build_top]. destruct (new_sumprod o (n - i) (nth i chs 0%nat) (nth (S i) chs 0%nat) (h * 2) (w * 2) 2 2 ord) as [l|e] eqn:El.
    2:{ exfalso. unfold new_sumprod in El. cbn in El. destruct ord; discriminate. }
    apply new_sumprod_ok in El as (us1 & Hl); auto; try lia; try (apply Nat.mod_mul; lia); try (apply HP; lia).
    rewrite !Nat.div_mul in Hl by lia. cbn [bind].
    destruct (IH (h * 2)%nat (w * 2)%nat (l :: acc) (fun T => us1 T ++ us T)) as (acc' & us' & E & Hcl); try lia.
    { eapply clays_cons; eauto. }
    exists acc', us'. rewrite E. cbn [Nat.pow]. replace (h * (2 * 2 ^ i))%nat with (h * 2 * 2 ^ i)%nat by ring. replace (w * (2 * 2 ^ i))%nat with (w * 2 * 2 ^ i)%nat by ring. auto.
Qed.
Lemma last_nth (l : list nat) d : last l d = nth (length l - 1) l d.
Proof.
  induction l as [|a [|b l] IH]; auto. change (last (a :: b :: l) d) with (last (b :: l) d). rewrite IH. cbn [length].
  replace (S (S (length l)) - 1)%nat with (S (length l)) by lia. replace (S (length l) - 1)%nat with (length l) by lia. reflexivity.
Qed.
End Construct.

(** A constructed model: its leaves fit the images ... *)
Record conv_leaf {V} (P : convpc V) : Prop := {
  co_C : lf_C (cp_leaf P) = cp_C P;
  co_F : lf_F (cp_leaf P) = (cp_H P * cp_W P)%nat;
  co_L : lf_L (cp_leaf P) = cp_L P;
  co_R : lf_R (cp_leaf P) = 1%nat;
  co_lf : leaf_ok (cp_leaf P);
  co_Lpos : (0 < cp_L P)%nat;
  co_H : (0 < cp_H P)%nat; co_W : (0 < cp_W P)%nat; co_Cpos : (0 < cp_C P)%nat }.
(** ... and its layers fit each other. *)
Record conv_ok {V} (P : convpc V) (us : R -> list ulayer) : Prop := {
  co_leafs : conv_leaf P;
  co_two : (2 <= cp_L P)%nat;
  co_clays : clays (cp_layers P) (cp_L P) (cp_H P) (cp_W P) us 1 1 1 }.

Lemma build_conv_inv {V} g C H W (o : coracle V) P : conv_accepted g C H W o P ->
  exists c0 rest, cc_channels g = c0 :: rest /\ cp_C P = C /\ cp_H P = H /\ cp_W P = W /\ cp_L P = c0 /\
    co_leaf o (W * H) C c0 1 = Ok (cp_leaf P) /\ (0 < H)%nat /\ (0 < W)%nat /\ (0 < C)%nat /\
    match cc_struct g with
    | CBottomUp => build_bottom o (cc_order g) (cc_kernel g) 0 (cc_channels g) H W = Ok (cp_layers P)
    | CTopDown => exists acc h w, build_top o (cc_order g) (c0 :: cc_channels g) (length (cc_channels g)) (length (cc_channels g)) 1 1
          [CSum (new_csum o 0 (last (cc_channels g) 0%nat) 1 1 1)] = Ok (acc, h, w) /\ cp_layers P = CProd (H / h) (W / w) :: acc
    | COther => False
    end.
Proof.
  intros [HO _ HB]. unfold build_convpc in HB. destruct (cc_channels g) as [|c0 rest] eqn:EC; [discriminate|].
  destruct (co_leaf o (W * H) C c0 1) as [lf|] eqn:El; [|discriminate]. cbn [bind] in HB.
  exists c0, rest. split; auto. destruct (cor_leaf _ HO _ _ _ _ _ El) as ((PF & PC & PL & _) & _).
  assert (PH: (0 < H)%nat) by nia. assert (PW: (0 < W)%nat) by nia.
  destruct (cc_struct g).
  - destruct (build_top _ _ _ _ _ _ _ _) as [[[acc h] w]|] eqn:Eb; [|discriminate]. cbn [bind] in HB. injection HB as <-. cbn.
    repeat (split; auto). exists acc, h, w. auto.
  - destruct (build_bottom _ _ _ _ _ _ _) as [ls|] eqn:Eb; [|discriminate]. cbn [bind] in HB. injection HB as <-. cbn. repeat (split; auto).
  - discriminate.
Qed.

Lemma top_start {V} (o : coracle V) (chs : list nat) c0 rest : conv_oracle o -> chs = c0 :: rest -> Forall (fun c => 0 < c)%nat chs ->
  Forall (fun c => 0 < c)%nat (c0 :: chs) /\ (length chs < length (c0 :: chs))%nat /\
  clays [CSum (new_csum o 0 (last chs 0%nat) 1 1 1)] (nth (length chs) (c0 :: chs) 0%nat) 1 1 (fun T => [csum_u (new_csum o 0 (last chs 0%nat) 1 1 1) T] ++ []) 1 1 1.
Proof.
  intros HO E Hp. split; [constructor; auto; rewrite E in Hp; inversion Hp; auto|]. split; [cbn; lia|].
  replace (nth (length chs) (c0 :: chs) 0%nat) with (last chs 0%nat).
  2:{ rewrite last_nth. rewrite E at 3. cbn [length nth]. rewrite E. cbn [length]. replace (S (length rest) - 1)%nat with (length rest) by lia. reflexivity. }
  eapply clays_cons; [|constructor].
  assert (HL: (0 < last chs 0)%nat).
  { rewrite last_nth. rewrite Forall_forall in Hp. apply Hp. apply nth_In. rewrite E. cbn [length]. lia. }
  apply (clay_sum (new_csum o 0 (last chs 0%nat) 1 1 1)). apply new_csum_ok; auto.
Qed.

Lemma accepted_conv_leaf {V} g C H W (o : coracle V) P : conv_accepted g C H W o P -> conv_leaf P.
Proof.
  intros HA. destruct (build_conv_inv _ _ _ _ _ _ HA) as (c0 & rest & EC & E1 & E2 & E3 & E4 & El & PH & PW & PC & HB).
  pose proof HA as [HO Hpos _]. destruct (cor_leaf _ HO _ _ _ _ _ El) as ((_ & _ & PL & _) & F1 & F2 & F3 & F4 & F5).
  split; try congruence; lia.
Qed.
Lemma accepted_conv_ok {V} g C H W (o : coracle V) P : conv_accepted g C H W o P -> conv_fits g H W -> exists us, conv_ok P us.
Proof.
  intros HA (Htwo & Hf). destruct (build_conv_inv _ _ _ _ _ _ HA) as (c0 & rest & EC & E1 & E2 & E3 & E4 & El & PH & PW & PC & HB).
  pose proof HA as [HO Hpos _]. destruct (cor_leaf _ HO _ _ _ _ _ El) as (_ & F1 & F2 & F3 & F4 & F5).
  assert (X: exists us, clays (cp_layers P) (cp_L P) (cp_H P) (cp_W P) us 1 1 1).
  { rewrite E4, E2, E3. destruct (cc_struct g).
    - destruct Hf as (Hord & Dh & Dw). destruct HB as (acc & h & w & Eb & ->).
      destruct (top_start o (cc_channels g) c0 rest HO EC Hpos) as (T1 & T2 & T3).
      destruct (build_top_ok o HO (cc_order g) (c0 :: cc_channels g) (length (cc_channels g)) Hord T1 (length (cc_channels g)) 1 1 _ _ ltac:(lia) ltac:(lia) T2 T3) as (acc' & us' & Eb' & Hc).
      rewrite Eb in Eb'. injection Eb' as <- -> ->. rewrite !Nat.mul_1_l in *. cbn [nth] in Hc.
      assert (HP: (0 < 2 ^ length (cc_channels g))%nat) by (apply Nat.neq_0_lt_0, Nat.pow_nonzero; lia).
      destruct Dh as [qh Dh], Dw as [qw Dw].
      eexists. eapply clays_cons; [|exact Hc]. apply clay_prod. rewrite Dh, Dw, !Nat.div_mul by lia. unfold tiles. repeat split; auto; nia.
    - destruct Hf as (Hord & Dh & Dw). destruct (build_bottom_ok o HO (cc_order g) (cc_kernel g) (cc_channels g) 0 H W (cp_layers P)) as (us & Hc); auto.
      exists us. rewrite EC in Hc. exact Hc.
    - tauto. }
  destruct X as (us & X). exists us. rewrite EC in Htwo. cbn [hd] in Htwo. split; [|congruence|exact X].
  eapply accepted_conv_leaf; eauto.
Qed.

(** Row [n] of a batch of images as data of the network. *)
Definition image {V} (P : convpc V) (x : tensor (option V)) (n : nat) : pdata V := fun c f => get x [n; c; f / cp_W P; f mod cp_W P]%nat.

(** * The leaves *)
Section Leafs.
Context {V : Type}.
Variable P : convpc V.
Hypothesis HP : conv_leaf P.
Let C := cp_C P. Let H := cp_H P. Let W := cp_W P. Let L := cp_L P. Let lf := cp_leaf P.
Lemma leaf_images_gen N x : images P N x -> exists y, leaf_images P x = (if (L =? 1)%nat then Err RuntimeErr else Ok y) /\
  crep y N L H W (fun n d l r => rprod C (fun c => lval (pdf lf) (image P x n) c d l r)).
Proof.
  intros [Sx Hx]. unfold leaf_images. fold C H W L lf. fold C H W L lf in Sx, Hx. unfold size at 1. rewrite Sx. cbn [nth].
  destruct (view_ok [N; C; H * W]%nat x) as (x1 & -> & S1 & G1); [rewrite Sx; cbn [numel]; ring|]. cbn [bind].
  assert (GX: forall n c h w, (n < N)%nat -> (c < C)%nat -> (h < H)%nat -> (w < W)%nat -> get x1 [n; c; h * W + w]%nat = get x [n; c; h; w]).
  { intros n c h w Hn Hc Hh Hw. apply G1; [rewrite Sx; simpl; repeat split; auto|]. rewrite Sx. cbn [ravel numel]. ring. }
  pose proof (co_C _ HP) as EC. pose proof (co_F _ HP) as EF. pose proof (co_L _ HP) as EL. pose proof (co_R _ HP) as ER. fold C H W L lf in EC, EF, EL, ER.
  destruct (base_forward_rep lf (co_lf _ HP) N x1 None) as (y & Ey & Sy & Gy).
  { split; [rewrite EC, EF; auto|]. split; auto. rewrite EC, EF. intros n c f v Hn Hc Hf E. destruct (flat_split f H W Hf) as (h & w & Hh & Hw & ->).
    rewrite GX in E by auto. eapply Hx; eauto. }
  rewrite Ey. cbn [bind]. rewrite EC, EF, EL, ER in Sy, Gy. unfold size at 1. rewrite Sy. cbn [nth].
  destruct (view_ok [N; C; H; W; L] y) as (z & -> & Sz & Gz); [rewrite Sy; cbn [numel]; ring|]. cbn [bind].
  assert (GZ: forall n c h w l, (n < N)%nat -> (c < C)%nat -> (h < H)%nat -> (w < W)%nat -> (l < L)%nat -> get z [n; c; h; w; l] = Fin (ln (lval (pdf lf) (image P x n) c (h * W + w)%nat l 0%nat))).
  { intros n c h w l Hn Hc Hh Hw Hl. rewrite (Gz _ [n; c; h * W + w; l; 0]%nat).
    - rewrite Gy by (auto using flat_lt). f_equal. f_equal. unfold lval, seen, image. cbn [in_ms]. rewrite GX, flat_div, flat_mod by auto. reflexivity.
    - rewrite Sy. simpl; repeat split; auto using flat_lt.
    - rewrite Sy. cbn [ravel numel]. ring. }
  destruct z as [sz gz]. cbn [shape get] in Sz, GZ. subst sz. unfold tsum, reduce, dim. cbn [shape remove_nth length].
  unfold squeeze, size. cbn [shape nth]. change (4 - 1)%nat with 3%nat. cbn [nth].
  match goal with |- context [permute _ (if _ then _ else ?b)] => exists (permute [0; 3; 1; 2]%nat b) end.
  split; [destruct (L =? 1)%nat; reflexivity|]. split; [reflexivity|].
  intros n l h w Hn Hl Hh Hw. 
  assert (PO: forall c, 0 < lval (pdf lf) (image P x n) c (h * W + w)%nat l 0%nat) by (intros; apply lval_pos).
  split; [apply rprod_pos; auto|]. rewrite ln_rprod by auto.
  unfold permute. cbn [get map seq length nth Nat.eqb]. cbn [get nth insert_nth].
  apply nsum_fin. intros c Hc. apply GZ; auto.
Qed.

End Leafs.

(** * The forward pass *)
Section Net.
Context {V : Type}.
Variable P : convpc V.
Variable us : R -> list ulayer.
Hypothesis HP : conv_ok P us.
Let C := cp_C P. Let H := cp_H P. Let W := cp_W P. Let L := cp_L P. Let lf := cp_leaf P.

Definition conv_net (T : R) : cnet := mkN (H * W) C L 1 (H * W) 1 (us T) (fun _ f => f) (fun _ _ => 1).
Lemma conv_net_wf T : cnet_wf (conv_net T).
Proof.
  split; cbn; intros; auto; try lra.
  apply (clays_chain _ _ _ _ _ _ _ _ T (co_clays _ _ HP)).
Qed.
Lemma conv_leafval T q d l r : (d < H * W)%nat -> leafval (conv_net T) q d l r = rprod C (fun c => q c d l r).
Proof.
  intros Hd. unfold leafval, conv_net. cbn [nF nC ngroup]. rewrite (rprod_single _ d) by (auto; intros i _ Hi; apply Nat.eqb_neq in Hi; rewrite Hi; auto).
  rewrite Nat.eqb_refl. reflexivity.
Qed.
Lemma conv_neteval T q : neteval (conv_net T) q 0 = evals (us T) (leafval (conv_net T) q) 0%nat 0%nat 0%nat.
Proof. unfold neteval. cbn [nR conv_net nmix nls]. rewrite rsum_S, rsum_0. ring. Qed.

Lemma leaf_images_ok N x : images P N x -> exists y, leaf_images P x = Ok y /\
  crep y N L H W (fun n => leafval (conv_net 1) (lval (pdf lf) (image P x n))).
Proof.
  intros Hx. destruct (leaf_images_gen P (co_leafs _ _ HP) N x Hx) as (y & E & Hy).
  destruct (Nat.eqb_spec (cp_L P) 1) as [Z|_]; [pose proof (co_two _ _ HP); lia|]. exists y. split; [exact E|].
  eapply crep_ext; [exact Hy|]. intros n d l Hn Hd Hl. cbn beta. rewrite conv_leafval by exact Hd. reflexivity.
Qed.

Theorem conv_forward_ok st N x : images P N x -> exists cas y, conv_forward P st x = (store st cas, Ok y) /\ shape y = [N] /\
  all_seen N (cp_layers P) L H W (fun n => leafval (conv_net 1) (lval (pdf lf) (image P x n))) cas /\
  forall n, (n < N)%nat -> get y [n] = Fin (ln (neteval (conv_net 1) (lval (pdf lf) (image P x n)) 0)).
Proof.
  intros Hx. unfold conv_forward. destruct (leaf_images_ok N x Hx) as (y & -> & Hy).
  destruct (clays_forward_ok _ _ _ _ _ _ _ _ N (co_clays _ _ HP) y _ Hy) as (cas & z & -> & Ha & [Sz Gz]). cbn [bind].
  unfold size. rewrite Sz. cbn [nth]. destruct (view_ok [N] z) as (t & -> & St & Gt); [rewrite Sz; cbn [numel]; ring|].
  exists cas, t. split; auto. split; auto. split; [exact Ha|]. intros n Hn.
  rewrite (Gt _ [n; 0; 0; 0]%nat); [|rewrite Sz; simpl; repeat split; auto; lia|rewrite Sz; cbn [ravel numel]; ring].
  destruct (Gz n 0 0 0 Hn)%nat as [_ ->]; try lia. rewrite conv_neteval. reflexivity.
Qed.
Lemma conv_value_pos T x n : 0 < neteval (conv_net T) (lval (pdf lf) (image P x n)) 0.
Proof. apply neteval_pos; [apply conv_net_wf|cbn; lia|]. intros. apply lval_pos. Qed.

(** * Free samples *)
Section Samples.
Variable EL : list nat -> (V -> R) -> R.
Hypothesis HEL : leaf_expectation EL.
Variable val : V -> R.

Lemma root_hot N : hotat (full [N; 1; 1; 1]%nat (Fin 1)) N 1 1 1 (fun _ _ => 0%nat).
Proof.
  split; [reflexivity|]. split; [intros; lia|]. intros n s h w Hn Hs Hh Hw. cbn. unfold hot. replace s with 0%nat by lia. reflexivity.
Qed.

(** What follows the raw draws. *)
Definition finish (p : tensor num) (s : tensor V) (n : nat) : res (tensor num) :=
  s <- dleaf_select (tmap (fun v => Fin (val v)) s) None (full [n; 1]%nat (Fin 1)) ;;
  '(N, _, _, li) <- size4 s ;;
  s <- view [N; C; H; W; li] s ;;
  index_one_hot 1 (permute [0; 4; 1; 2; 3] s)%nat (unsqueeze 2 p).
Lemma finish_ok N p i s : hotat p N L H W i -> shape s = [N; 1; C; (H * W)%nat; L; 1; 1]%nat ->
  exists t, finish p s N = Ok t /\ shape t = [N; C; H; W] /\
  forall n c h w, (n < N)%nat -> (c < C)%nat -> (h < H)%nat -> (w < W)%nat ->
    get t [n; c; h; w] = Fin (val (get s [n; 0; c; h * W + w; i n (h * W + w); 0; 0]%nat)).
Proof.
  intros (Sp & Hi & Gp) Ss. unfold finish.
  pose proof (co_C _ (co_leafs _ _ HP)) as EC. pose proof (co_F _ (co_leafs _ _ HP)) as EF. pose proof (co_L _ (co_leafs _ _ HP)) as ELf. pose proof (co_R _ (co_leafs _ _ HP)) as ER. fold C H W L lf in EC, EF, ELf, ER.
  destruct (dleaf_select_none_ok lf (tmap (fun v => Fin (val v)) s) N (full [N; 1]%nat (Fin 1)) (mkT [N] (fun _ => 0%nat))) as (t & -> & St & Gt).
  { rewrite ER. lia. }
  { rewrite ER. split; [reflexivity|]. intros n r Hn Hr. cbn. unfold hot. replace r with 0%nat by lia. reflexivity. }
  { intros. rewrite ER. cbn. lia. }
  { cbn [tmap shape]. rewrite Ss, EC, EF, ELf, ER. reflexivity. }
  { intros idx. reflexivity. }
  cbn [bind]. rewrite EC, EF, ELf in St, Gt. unfold size4. rewrite St. cbn [bind].
  destruct (view_ok [N; C; H; W; L] t) as (z & -> & Sz & Gz); [rewrite St; cbn [numel]; ring|]. cbn [bind].
  assert (GZ: forall n c h w l, (n < N)%nat -> (c < C)%nat -> (h < H)%nat -> (w < W)%nat -> (l < L)%nat ->
     get z [n; c; h; w; l] = Fin (val (get s [n; 0; c; h * W + w; l; 0; 0]%nat))).
  { intros n c h w l Hn Hc Hh Hw Hl. rewrite (Gz _ [n; c; h * W + w; l]%nat).
    - rewrite Gt by (auto using flat_lt). reflexivity.
    - rewrite St. simpl; repeat split; auto using flat_lt.
    - rewrite St. cbn [ravel numel]. ring. }
  destruct z as [sz gz], p as [sp gp]. cbn [shape get] in Sz, GZ, Sp, Gp. subst sz sp.
  unfold permute. cbn [map seq length nth Nat.eqb size shape]. cbn [nth].
  unfold unsqueeze. cbn [shape insert_nth]. ioh. eexists. split; [reflexivity|]. split; [reflexivity|].
  intros n c h w Hn Hc Hh Hw. unfold size. cbn [get shape nth insert_nth]. pose proof (Hi n _ Hn (flat_lt h w H W Hh Hw)) as Hin.
  rewrite (nsum_ext _ _ (fun l => nmul (Fin (val (get s [n; 0; c; h * W + w; l; 0; 0]%nat))) (hot l (i n (h * W + w)%nat)))).
  - rewrite (nsum_hot L (fun l => Fin (val (get s [n; 0; c; h * W + w; l; 0; 0]%nat)))); auto.
  - intros l Hl. gets. rewrite GZ, Gp by auto. reflexivity.
Qed.

(** The law of a free sample, given that of the layers. *)
Lemma conv_free_law st a N us0 v (g : nat -> nat -> nat -> num -> R) : lf_ctx lf = true ->
  ca_mpe a = false -> ca_mpel a = false -> ca_params a = false ->
  clawful EL (clayers_sample (ca_tsum a) false (combine (cp_layers P) (live P st))) N us0 L H W 1 1 1 v ->
  (forall supp r, outcome supp (conv_free P val st a N) r -> exists t, r = Ok t /\ shape t = [N; C; H; W]) /\
  expect EL (conv_free P val st a N) (fun t => rprod3 N C (H * W) (fun n c f => g n c f (get t [n; c; f / W; f mod W]%nat))) =
  rprod N (fun n => evals us0 (vmul (fun d l r => rprod C (fun c => EL [c; d; l; r] (fun x => g n c d (Fin (val x))))) (v n)) 0%nat 0%nat 0%nat / evals us0 (v n) 0%nat 0%nat 0%nat).
Proof.
  intros Hctx Hm Hml Hpar Hl. destruct (Hl _ _ (root_hot N)) as [O X].
  pose proof (co_C _ (co_leafs _ _ HP)) as EC. pose proof (co_F _ (co_leafs _ _ HP)) as EF. pose proof (co_L _ (co_leafs _ _ HP)) as ELf. pose proof (co_R _ (co_leafs _ _ HP)) as ER. fold C H W L lf in EC, EF, ELf, ER.
  assert (EP: conv_free P val st a N = (p <~ clayers_sample (ca_tsum a) false (combine (cp_layers P) (live P st)) (full [N; 1; 1; 1]%nat (Fin 1)) ;;
     s <~ leaf_mode_or_draw lf N false ;; lift (finish p s N))).
  { unfold conv_free. rewrite Hm, Hml, Hpar. fold lf. rewrite Hctx. reflexivity. }
  rewrite EP. clear EP.
  assert (OD: forall supp r, outcome supp (leaf_mode_or_draw lf N false) r -> exists s, r = Ok s /\ shape s = [N; 1; C; H * W; L; 1; 1]%nat).
  { intros supp r Hr. unfold leaf_mode_or_draw in Hr. apply outcome_bind in Hr as [(e & Hr & ->)|(s & Hr & Hs)].
    - apply outcome_draw_tensor in Hr as [(e' & idx & E & _ & Hd)|(t & E & _)]; [|discriminate]. inversion Hd as [| | | |key kk v' rr Hv Hr]; subst. inversion Hr.
    - apply outcome_draw_tensor in Hr as [(e' & idx & E & _)|(t & E & St & Gt)]; [discriminate|]. inversion E; subst t.
      apply outcome_ret_inv in Hs. exists (unsqueeze 6 s). split; auto. cbn [unsqueeze shape]. rewrite St, EC, EF, ELf, ER. reflexivity. }
  split.
  - intros supp r Hr. apply outcome_bind in Hr as [(e & Hr & ->)|(p & Hr & Hs)].
    + destruct (O _ _ Hr) as (o & j & E & _). discriminate.
    + destruct (O _ _ Hr) as (o & j & E & Hj). inversion E; subst o. apply outcome_bind in Hs as [(e & Hs & ->)|(s & Hs & Ht)].
      * destruct (OD _ _ Hs) as (s & E' & _). discriminate.
      * destruct (OD _ _ Hs) as (s' & E' & Ss). inversion E'; subst s'. destruct (finish_ok N p j s Hj Ss) as (t & Et & St & _).
        rewrite Et in Ht. apply outcome_ret_inv in Ht. eauto.
  - rewrite expect_bind by auto.
    set (hh := fun (n d l r : nat) => rprod C (fun c => EL [c; d; l; r] (fun x => g n c d (Fin (val x))))).
    transitivity (expect EL (clayers_sample (ca_tsum a) false (combine (cp_layers P) (live P st)) (full [N; 1; 1; 1]%nat (Fin 1))) (fun p => cprod N L H W p hh)).
    + apply expect_ext_outcome; auto. intros p Hr. destruct (O _ _ Hr) as (o & i & E & Hj). inversion E; subst o.
      rewrite (cprod_hot _ _ _ _ _ _ _ Hj). pose proof Hj as (_ & Hi & _).
      set (c := mkCtx N (mkT [N; H * W]%nat (fun idx => i (nth 0 idx 0%nat) (nth 1 idx 0%nat))) (mkT [N] (fun _ => 0%nat)) false 1).
      set (kk := fun s : tensor V => Ok (mkT [N; C; H * W]%nat (fun idx => get s [nth 0 idx 0; 0; nth 1 idx 0; nth 2 idx 0; i (nth 0 idx 0) (nth 2 idx 0); 0; 0]%nat))).
      assert (Hc: cgood c N (H * W) L 1).
      { split; [reflexivity|]. split; [reflexivity|]. split; [|split; [reflexivity|]]; cbn; intros; auto. }
      assert (LD := leaf_draw_law lf EL HEL kk c N (H * W) (fun _ f => f) (fun n ch f x => g n ch f (Fin (val x)))). rewrite ELf, ER in LD.
      specialize (LD Hc). rewrite EF, EC in LD. specialize (LD ltac:(auto)).
      assert (RT: routes lf kk c N (fun _ f => f)).
      { intros s Ss. eexists. split; [reflexivity|]. rewrite EC, EF. split; [reflexivity|]. intros n ch f Hn Hch Hf. reflexivity. }
      specialize (LD RT). unfold leaf_prog in LD. rewrite expect_bind in LD by auto. rewrite expect_bind by auto.
      transitivity (expect EL (leaf_mode_or_draw lf N false) (fun s => expect EL (lift (kk s)) (fun t => rprod3 N C (H * W) (fun n ch f => g n ch f (Fin (val (get t [n; ch; f]))))))).
      * apply expect_ext_outcome; auto. intros s Hs. destruct (OD _ _ Hs) as (s' & E' & Ss). inversion E'; subst s'.
        destruct (finish_ok N p i s Hj Ss) as (t & Et & St & Gt). rewrite Et. cbn [lift kk expect].
        apply rprod3_ext. intros n ch f Hn Hch Hf. destruct (flat_split f H W Hf) as (h & w & Hh & Hw & ->).
        rewrite flat_div, flat_mod by auto. rewrite Gt by auto. reflexivity.
      * rewrite LD. unfold tprod. apply rprod2_ext. intros n d Hn Hd. unfold gleaf, hh.
        rewrite (rprod_single _ d) by (auto; intros f _ Hf; apply Nat.eqb_neq in Hf; rewrite Hf; auto). rewrite Nat.eqb_refl. reflexivity.
    + rewrite X. rewrite (cprod_hot _ _ _ _ _ _ _ (root_hot N)). apply rprod_ext. intros n Hn. change (1 * 1)%nat with 1%nat. rewrite rprod_S, rprod_0, Rmult_1_l. reflexivity.
Qed.
End Samples.
End Net.

(** * Which sizes fit *)
Section Sizes.
Context {V : Type}.
Variable o : coracle V.
Hypothesis Ho : conv_oracle o.

Lemma bdim_1l n : bdim 1 n = Some n.
Proof. unfold bdim. destruct (Nat.eqb_spec 1 n); subst; auto. Qed.
Lemma bdim_1r n : bdim n 1 = Some n.
Proof. unfold bdim. destruct (Nat.eqb_spec n 1); subst; auto. Qed.
Lemma bdim_refl n : bdim n n = Some n.
Proof. unfold bdim. rewrite Nat.eqb_refl. auto. Qed.
Lemma csum_forward_shape s x y N S H W h w : shape (cs_logits s) = [cs_out s; S; h; w] -> shape x = [N; S; H; W] -> csum_forward s x = Ok y ->
  exists H1 W1, bdim H h = Some H1 /\ bdim W w = Some W1 /\ shape y = [N; cs_out s; H1; W1].
Proof.
  intros Sl Sx E. unfold csum_forward, badd, bop in E. cbn [unsqueeze tlog_softmax shape] in E. rewrite Sl, Sx in E. cbn [insert_nth] in E.
  unfold bshape in E. cbn [rev app bshape_rev option_map] in E. rewrite bdim_refl, bdim_1l, bdim_1r in E.
  destruct (bdim W w) as [W1|]; [|discriminate]. destruct (bdim H h) as [H1|]; [|discriminate]. cbn [option_map rev app bind] in E.
  injection E as <-. exists H1, W1. auto.
Qed.
Lemma csum_forward_same i cin cout x y N H W : shape x = [N; cin; H; W] -> csum_forward (new_csum o i cin cout H W) x = Ok y -> shape y = [N; cout; H; W].
Proof.
  intros Sx E. destruct (csum_forward_shape (new_csum o i cin cout H W) x y N cin H W H W (proj1 (cor_logits _ Ho i [cout; cin; H; W])) Sx E) as (H1 & W1 & A & B & ->).
  rewrite bdim_refl in A, B. injection A as <-. injection B as <-. reflexivity.
Qed.
Lemma prod_forward_shape kh kw x y N S H W : shape x = [N; S; H; W] -> prod_forward kh kw x = Ok y ->
  (0 < kh /\ 0 < kw /\ H mod kh = 0 /\ W mod kw = 0 /\ kh <= H /\ kw <= W)%nat /\ shape y = [N; S; (H / kh)%nat; (W / kw)%nat].
Proof.
  intros Sx E. unfold prod_forward, size4, guard, assert in E. rewrite Sx in E. cbn [bind] in E.
  destruct (Nat.eqb_spec kh 0); [discriminate|]. cbn [negb bind] in E. destruct (Nat.eqb_spec (H mod kh) 0); [|discriminate]. cbn [bind] in E.
  destruct (Nat.eqb_spec kw 0); [discriminate|]. cbn [negb bind] in E. destruct (Nat.eqb_spec (W mod kw) 0); [|discriminate]. cbn [bind] in E.
  destruct (Nat.leb_spec kh H); [|discriminate]. destruct (Nat.leb_spec kw W); [|discriminate]. cbn [andb bind] in E. injection E as <-.
  split; [lia|]. cbn [conv_ones shape].
  assert (Q: forall z k, (k <> 0)%nat -> (k <= z)%nat -> ((z - k) / k + 1 = z / k)%nat).
  { intros z k Hk Hz. rewrite <- (Nat.div_add (z - k) 1 k) by auto. f_equal. lia. }
  rewrite !Q by auto. reflexivity.
Qed.
Lemma divide_back k m z : (0 < k)%nat -> (z mod k = 0)%nat -> Nat.divide m (z / k) -> Nat.divide (k * m) z.
Proof. intros Hk Hm [q Hq]. exists q. pose proof (Nat.div_mod z k ltac:(lia)). nia. Qed.

Lemma sumprod_forward_shape i cin cout h w k ord l x ca y N : new_sumprod o i cin cout h w k k ord = Ok l -> shape x = [N; cin; h; w] ->
  clayer_forward l x = (ca, Ok y) ->
  ord <> OOther /\ (0 < k /\ h mod k = 0 /\ w mod k = 0 /\ 0 < h / k /\ 0 < w / k)%nat /\ shape y = [N; cout; (h / k)%nat; (w / k)%nat].
Proof.
  intros El Sx E. unfold new_sumprod in El. destruct (Nat.eqb_spec k 0); [discriminate|]. cbn [negb andb guard bind] in El.
  assert (PQ: forall z, (k <= z)%nat -> (0 < z / k)%nat) by (intros; apply Nat.div_str_pos; lia).
  destruct ord; injection El as <-; cbn [clayer_forward] in E.
  - injection E as <- E. destruct (csum_forward _ x) as [z|] eqn:Ez; [|discriminate]. cbn [bind] in E.
    apply (csum_forward_same _ _ _ _ _ N) in Ez; auto. destruct (prod_forward_shape _ _ _ _ _ _ _ _ Ez E) as ((A & B & C & D & F & G) & ->).
    split; [discriminate|]. repeat split; auto.
  - destruct (prod_forward k k x) as [z|] eqn:Ez; [|discriminate]. injection E as <- E.
    destruct (prod_forward_shape _ _ _ _ _ _ _ _ Sx Ez) as ((A & B & C & D & F & G) & Sz).
    apply (csum_forward_same _ _ _ _ _ N) in E; auto. split; [discriminate|]. repeat split; auto.
  - discriminate.
Qed.
Lemma build_bottom_sizes ord k : forall chs i h w ls x N y, build_bottom o ord k i chs h w = Ok ls -> shape x = [N; hd 0%nat chs; h; w] ->
  snd (clayers_forward ls x) = Ok y ->
  ((length chs = 1)%nat \/ ord <> OOther) /\ Nat.divide (k ^ (length chs - 1)) h /\ Nat.divide (k ^ (length chs - 1)) w.
Proof.
  induction chs as [|c [|c' rest] IH]; intros i h w ls x N y Eb Sx E.
  - discriminate.
  - cbn [length Nat.sub]. replace (1 - 1)%nat with 0%nat by lia. cbn [Nat.pow]. split; auto. split; apply Nat.divide_1_l.
  - change (build_bottom o ord k i (c :: c' :: rest) h w) with
      (l <- new_sumprod o i c c' h w k k ord ;; ls <- build_bottom o ord k (S i) (c' :: rest) (h / k) (w / k) ;; Ok (l :: ls)) in Eb.
    destruct (new_sumprod _ _ _ _ _ _ _ _ _) as [l|] eqn:El; [|discriminate]. cbn [bind] in Eb.
    destruct (build_bottom _ _ _ _ _ _ _) as [ls'|] eqn:Es; [|discriminate]. injection Eb as <-.
    cbn [clayers_forward] in E. destruct (clayer_forward l x) as [ca [z|e]] eqn:Ez; [|discriminate].
    destruct (clayers_forward ls' z) as [cs u] eqn:Eu. cbn [snd] in E.
    destruct (sumprod_forward_shape _ _ _ _ _ _ _ _ _ _ _ _ El Sx Ez) as (A & (B & C & D & F & G) & Sz).
    destruct (IH _ _ _ _ z N y Es Sz) as (_ & D1 & D2); [rewrite Eu; auto|]. cbn [length] in *.
    replace (S (length rest) - 1)%nat with (length rest) in D1, D2 by lia. replace (S (S (length rest)) - 1)%nat with (S (length rest)) by lia. cbn [Nat.pow].
    split; auto. split; apply divide_back; auto.
Qed.
(** The lowest layer above the product layer of a top-down model. *)
Lemma build_top_head ord chs n : forall i h w acc acc' h' w', build_top o ord chs n (S i) h w acc = Ok (acc', h', w') ->
  h' = (h * 2 ^ S i)%nat /\ w' = (w * 2 ^ S i)%nat /\ exists l rest, acc' = l :: rest /\ new_sumprod o (n - 0) (nth 0 chs 0%nat) (nth 1 chs 0%nat) h' w' 2 2 ord = Ok l.
Proof.
  induction i as [|i IH]; intros h w acc acc' h' w' E.
  - cbn [build_top] in E. destruct (new_sumprod _ _ _ _ _ _ _ _ _) as [l|] eqn:El; [|discriminate]. cbn [bind] in E. injection E as <- <- <-.
    cbn [Nat.pow]. split; [lia|]. split; [lia|]. exists l, acc. auto.
  - cbn [build_top] in E. destruct (new_sumprod _ _ _ _ _ _ _ _ _) as [l|] eqn:El; [|discriminate]. cbn [bind] in E.
    apply IH in E as (-> & -> & X). split; [cbn [Nat.pow]; lia|]. split; [cbn [Nat.pow]; lia|]. exact X.
Qed.
Lemma top_arith n H : let h := (2 ^ S n)%nat in (0 < H / h)%nat -> (H mod (H / h) = 0)%nat ->
  (h <= H / (H / h))%nat /\ (H = H / (H / h) * (H / h))%nat.
Proof.
  intros h P M. assert (h <> 0)%nat by (apply Nat.pow_nonzero; lia). pose proof (Nat.div_mod H (H / h) ltac:(lia)) as E.
  split; [|lia]. apply Nat.div_le_lower_bound; [lia|]. pose proof (Nat.mul_div_le H h ltac:(auto)). lia.
Qed.
Lemma top_first ord n cin cout i l H W x N ca y : let h := (2 ^ S n)%nat in
  new_sumprod o i cin cout h h 2 2 ord = Ok l -> (0 < H / h)%nat -> (0 < W / h)%nat -> (H mod (H / h) = 0)%nat -> (W mod (W / h) = 0)%nat ->
  shape x = [N; cin; (H / (H / h))%nat; (W / (W / h))%nat] -> clayer_forward l x = (ca, Ok y) ->
  ord <> OOther /\ Nat.divide h H /\ Nat.divide h W.
Proof.
  intros h El PH PW MH MW Sx E. destruct (top_arith n H PH MH) as [GH EH]. destruct (top_arith n W PW MW) as [GW EW]. fold h in GH, EH, GW, EW.
  set (kh := (H / h)%nat) in *. set (kw := (W / h)%nat) in *. set (H1 := (H / kh)%nat) in *. set (W1 := (W / kw)%nat) in *.
  assert (h2: (2 <= h)%nat). { unfold h. cbn [Nat.pow]. assert (2 ^ n <> 0)%nat by (apply Nat.pow_nonzero; lia). lia. }
  assert (Fin: H1 = h -> W1 = h -> Nat.divide h H /\ Nat.divide h W).
  { intros A B. rewrite A in EH. rewrite B in EW. split; [exists kh|exists kw]; lia. }
  unfold new_sumprod in El. cbn [Nat.eqb negb andb guard bind] in El.
  destruct ord; injection El as <-; cbn [clayer_forward] in E.
  - injection E as <- E. destruct (csum_forward _ x) as [z|] eqn:Ez; [|discriminate].
    destruct (csum_forward_shape (new_csum o i cin cout h h) x z N cin H1 W1 h h (proj1 (cor_logits _ Ho _ _)) Sx Ez) as (A & B & EA & EB & _).
    split; [discriminate|]. unfold bdim in EA, EB. apply Fin.
    + destruct (Nat.eqb_spec H1 h); auto. destruct (Nat.eqb_spec H1 1); [lia|]. destruct (Nat.eqb_spec h 1); [lia|discriminate].
    + destruct (Nat.eqb_spec W1 h); auto. destruct (Nat.eqb_spec W1 1); [lia|]. destruct (Nat.eqb_spec h 1); [lia|discriminate].
  - destruct (prod_forward 2 2 x) as [z|] eqn:Ez; [|discriminate]. injection E as <- E.
    destruct (prod_forward_shape _ _ _ _ _ _ _ _ Sx Ez) as ((_ & _ & M1 & M2 & _ & _) & Sz).
    assert (h / 2 = 2 ^ n)%nat as Eh. { unfold h. cbn [Nat.pow]. rewrite Nat.mul_comm. apply Nat.div_mul. lia. }
    assert (Q: forall Z k Z1, k = (Z / h)%nat -> (0 < k)%nat -> (h <= Z1)%nat -> Z = (Z1 * k)%nat -> (Z1 mod 2 = 0)%nat -> forall d, bdim (Z1 / 2) (h / 2) = Some d -> Z1 = h).
    { intros Z k Z1 Ek Pk G EZ M d EB. pose proof (Nat.div_mod Z1 2 ltac:(lia)) as D. rewrite M, Nat.add_0_r in D. set (q := (Z1 / 2)%nat) in *.
      rewrite Eh in EB. assert (h = 2 * 2 ^ n)%nat as E2 by reflexivity. unfold bdim in EB.
      destruct (Nat.eqb_spec q (2 ^ n)); [lia|]. destruct (Nat.eqb_spec q 1).
      - assert (2 ^ n <> 0)%nat by (apply Nat.pow_nonzero; lia). lia.
      - destruct (Nat.eqb_spec (2 ^ n) 1) as [e1|]; [|discriminate]. exfalso. rewrite e1 in *.
        assert (Z / 2 = q * k)%nat as E3. { replace Z with (q * k * 2)%nat by nia. apply Nat.div_mul. lia. } rewrite E2 in Ek. change (2 * 1)%nat with 2%nat in Ek. nia. }
    destruct (csum_forward_shape (new_csum o i cin cout (h / 2) (h / 2)) z y N cin (H1 / 2) (W1 / 2) (h / 2) (h / 2) (proj1 (cor_logits _ Ho _ _)) Sz E) as (A & B & EA & EB & _).
    split; [discriminate|]. apply Fin; [eapply (Q H kh)|eapply (Q W kw)]; eauto.
  - discriminate.
Qed.
End Sizes.

Theorem conv_forward_sizes {V} g C H W (o : coracle V) P st N x y : conv_accepted g C H W o P -> images P N x ->
  snd (conv_forward P st x) = Ok y -> conv_fits g H W.
Proof.
  intros HA Hx E. destruct (build_conv_inv _ _ _ _ _ _ HA) as (c0 & rest & EC & E1 & E2 & E3 & E4 & El & PH & PW & PC & HB).
  pose proof HA as [HO Hpos _]. destruct (leaf_images_gen P (accepted_conv_leaf _ _ _ _ _ _ HA) N x Hx) as (z & Ez & [Sz _]).
  unfold conv_forward in E. rewrite Ez in E. destruct (Nat.eqb_spec (cp_L P) 1) as [|L1]; [discriminate|].
  destruct (clayers_forward (cp_layers P) z) as [cs u] eqn:Eu. cbn [snd] in E. destruct u as [u|]; [|discriminate]. clear E.
  rewrite E4, E2, E3 in Sz. split.
  { rewrite EC in *. inversion Hpos; subst. cbn [hd]. lia. }
  destruct (cc_struct g); [| |contradiction].
  - destruct HB as (acc & h & w & Eb & EL). rewrite EL in Eu. cbn [clayers_forward clayer_forward] in Eu.
    destruct (prod_forward _ _ z) as [z1|] eqn:Ez1; [|discriminate]. destruct (length (cc_channels g)) as [|n] eqn:En; [rewrite EC in En; discriminate|].
    apply build_top_head in Eb as (Eh & Ew & l & acc1 & -> & Esp). rewrite Nat.mul_1_l in Eh, Ew. subst h w.
    destruct (prod_forward_shape _ _ _ _ _ _ _ _ Sz Ez1) as ((A & B & D & F & _ & _) & Sz1).
    cbn [clayers_forward] in Eu. destruct (clayer_forward l z1) as [ca [z2|]] eqn:Ez2; [|discriminate].
    eapply top_first; eauto.
  - eapply build_bottom_sizes; [exact HO|exact HB|rewrite EC; exact Sz|rewrite Eu; reflexivity].
Qed.
