(** C23, C24: valid histories of calls, with a condition on the arguments instead of the results. *)
From Coq Require Import List Arith Lia Bool ZArith Reals Lra.
Import ListNotations.
From Verif Require Import Base RSum Num Tensor Prob Layers Circuit Leaf Einet RefEinet Build RefBuild Spec RefSpec Ex ExBad State RefState PropForward PropSample PropState.
Local Open Scope R_scope.

(** A generator that draws indices within the range and values within the support of the given leaves. *)
Definition sound_draws {V G} (draw : G -> list num -> nat * G) (drawl : leaf_layer V -> G -> list nat -> V * G) (lls : list (leaf_layer V)) : Prop :=
  (forall g w, w <> [] -> (fst (draw g w) < length w)%nat) /\
  (forall ll g key, In ll lls -> lf_supp (leaf_of ll) (fst (drawl ll g key)) = true).
(** The leaves that a network has in the course of a history. *)
Fixpoint leaves_of {V} (E : einet V) (cs : list (@call V)) : list (leaf_layer V) :=
  match cs with [] => [e_leaf E] | Update E' :: cs' => e_leaf E :: leaves_of E' cs' | _ :: cs' => leaves_of E cs' end.
(** A program whose possible outcomes are all results returns with every such generator. *)
Lemma run_total {V G A} draw drawl (ll : leaf_layer V) (m : M V A) : sound_draws draw drawl [ll] ->
  (forall r, outcome (fun _ v => lf_supp (leaf_of ll) v = true) m r -> exists t, r = Ok t) ->
  forall g : G, exists t, outcome (fun _ v => lf_supp (leaf_of ll) v = true) m (Ok t) /\ fst (run draw drawl ll m g) = Ok t.
Proof.
  intros [H1 H2]. induction m as [a|e|w k IH|key k IH]; intros Ho g; cbn [run].
  - exists a. split; [constructor|reflexivity].
  - destruct (Ho (Err e)) as (t & Z); [constructor|discriminate].
  - destruct w as [|z w].
    + destruct (Ho (Err RuntimeErr)) as (t & Z); [apply out_empty; reflexivity|discriminate].
    + pose proof (H1 g (z :: w) ltac:(discriminate)) as Hi. destruct (draw g (z :: w)) as [i g']. cbn [fst] in Hi.
      destruct (IH i) with (g := g') as (t & Ht & Er). { intros r Hr. apply Ho. eapply out_cat; eauto. }
      exists t. split; [eapply out_cat; eauto|exact Er].
  - pose proof (H2 ll g key (or_introl eq_refl)) as Hv. destruct (drawl ll g key) as [v g']. cbn [fst] in Hv.
    destruct (IH v) with (g := g') as (t & Ht & Er). { intros r Hr. apply Ho. eapply out_leaf; eauto. }
    exists t. split; [eapply out_leaf; eauto|exact Er].
Qed.

(** Evidence is a batch of data with possibly missing values; explanations need leaves with a mode in their support. *)
Definition valid_call {V} (E : einet V) (c : @call V) : Prop :=
  match c with
  | Sample a _ =>
      match a_ev a with
      | None => True
      | Some e => (exists N, (0 < N)%nat /\ evidence E N e (a_ms a)) /\ a_tsum a <> 0 /\
          (a_mpe a || a_mpel a = true -> exists md, lf_mode (leafE E) = Some md /\
             forall c f l r, (c < e_C E)%nat -> (f < e_F E)%nat -> (l < e_L E)%nat -> (r < e_R E)%nat -> lf_supp (leafE E) (md [c; f; l; r]) = true)
      end
  | _ => True
  end.
(** All calls are valid for the network of their time; new parameters give a network of the same configuration.  Forward passes,
    samples without evidence and rejected arguments are arbitrary, they may fail. *)
Fixpoint valid_history {V} (g : config) (E : einet V) (cs : list (@call V)) : Prop :=
  match cs with
  | [] => True
  | c :: cs' => valid_call E c /\
      match c with
      | Update E' => (exists o, accepted g o E') /\ lf_ctx (leafE E') = true /\ length (e_layers E') = length (e_layers E) /\ valid_history g E' cs'
      | _ => valid_history g E cs'
      end
  end.
(** The network after a history. *)
Fixpoint last_net {V} (E : einet V) (cs : list (@call V)) : einet V :=
  match cs with [] => E | Update E' :: cs' => last_net E' cs' | _ :: cs' => last_net E cs' end.
Section Trace.
Context {V G : Type}.
Variables (seeding : Z -> G) (draw : G -> list num -> nat * G) (drawl : leaf_layer V -> G -> list nat -> V * G).
Lemma given_returns g o (E : einet V) (a : sargs) e rng : sound_draws draw drawl [e_leaf E] -> accepted g o E -> lf_ctx (leafE E) = true -> a_ev a = Some e -> valid_call E (Sample a None) -> check_args E a = Ok tt ->
  exists t, fst (run draw drawl (e_leaf E) (sample E a) rng) = Ok t /\ shape t = shape e /\
    forall n c f, (n < size e 0)%nat -> (c < e_C E)%nat -> (f < e_F E)%nat ->
      match observed e (a_ms a) n c f with
      | Some v => entry t n c f = Some v
      | None => exists w, entry t n c f = Some w /\ lf_supp (leafE E) w = true
      end.
Proof.
  intros HD HA HX He Hv Hc. cbn [valid_call] in Hv. rewrite He in Hv. destruct Hv as ((N & HN & Hev) & HT & Hmd).
  destruct a as [n cl ev mpe mpel T ms]. cbn [a_ev a_ms a_tsum a_mpe a_mpel] in *. subst ev.
  assert (Z: n = None /\ cl = CNone).
  { unfold check_args in Hc. cbn [a_class a_ev a_n is_none] in Hc. destruct cl; [|discriminate|discriminate]. destruct n; [discriminate|auto]. }
  destruct Z as [-> ->].
  pose proof (C11_evidence_kept V g o E N e ms mpe mpel T HA HX Hev HN HT Hmd (fun _ v => lf_supp (leafE E) v = true)) as K.
  destruct (run_total draw drawl (e_leaf E) (sample E (mkArgs None CNone (Some e) mpe mpel T ms)) HD) with (g := rng) as (t & Ho & Er).
  { intros r Hr. destruct (K r (fun _ _ H => H) Hr) as (t & -> & _). eauto. }
  exists t. split; [exact Er|]. destruct (K _ (fun _ _ H => H) Ho) as (t' & Et & St & Gt). injection Et as <-. split; auto.
  assert (SN: size e 0 = N) by (destruct Hev as [[Se _] _]; unfold size; destruct Se as [[Se _]|[Se|(? & ? & Se & _)]]; rewrite Se; reflexivity). rewrite SN. exact Gt.
Qed.
Lemma leaves_head (E : einet V) cs : In (e_leaf E) (leaves_of E cs).
Proof. revert E. induction cs as [|[] cs IH]; intros E0; cbn [leaves_of In]; auto. Qed.
Lemma sound_sub (l l' : list (leaf_layer V)) : sound_draws draw drawl l -> incl l' l -> sound_draws draw drawl l'.
Proof. intros [A B] H. split; auto. Qed.
Lemma valid_well cs : forall g o (E : einet V) ob rng, sound_draws draw drawl (leaves_of E cs) -> accepted g o E -> lf_ctx (leafE E) = true -> clean ob -> o_net ob = E -> valid_history g E cs ->
  all_well seeding draw drawl (ob, rng) cs.
Proof.
  induction cs as [|c cs IH]; intros g o E ob rng HD HA HX Hcl HE; [exact (fun _ => I)|]. intros [Hc Hr]. cbn [all_well fst].
  assert (W: ends_well (o_net ob) c (snd (exec seeding draw drawl (ob, rng) c))).
  { destruct c as [x ms ci|a seed| |E']; cbn [exec].
    - destruct (st_forward ob x ms ci); exact I.
    - pose proof (proj1 (st_sample_clean seeding draw drawl ob rng a seed Hcl)) as Hs.
      destruct (st_sample seeding draw drawl ob rng a seed) as [s' r]. cbn [snd ends_well] in *. destruct r as [t|er]; [exact I|].
      destruct (a_ev a) as [e|] eqn:Ea; [|left; reflexivity]. right. intros Hk. rewrite HE in Hs, Hk.
      assert (HD1: sound_draws draw drawl [e_leaf E]) by (apply (sound_sub _ _ HD); intros z [<-|[]]; apply leaves_head).
      destruct (given_returns g o E a e (match seed with Some z => seeding z | None => rng end) HD1 HA HX Ea Hc Hk) as (t & Et & _). congruence.
    - exact I.
    - cbn [snd ends_well]. rewrite HE. apply Hr. }
  assert (HD2: sound_draws draw drawl (match c with Update E' => leaves_of E' cs | _ => leaves_of E cs end)).
  { apply (sound_sub _ _ HD). destruct c; cbn [leaves_of]; intros z Hz; auto. right. exact Hz. }
  split; [exact W|]. pose proof (exec_clean seeding draw drawl ob rng c Hcl W) as Hcl'.
  destruct c as [x ms ci|a seed| |E']; cbn [exec] in *.
  - pose proof (st_forward_state ob x ms ci) as (N & _). destruct (st_forward ob x ms ci) as [ob' r]. cbn [fst snd] in *. apply (IH g o E); auto. congruence.
  - assert (N: o_net (fst (fst (st_sample seeding draw drawl ob rng a seed))) = o_net ob) by apply st_sample_leaf.
    destruct (st_sample seeding draw drawl ob rng a seed) as [[ob' rng'] r]. cbn [fst snd] in *. apply (IH g o E); auto. congruence.
  - apply (IH g o E); auto.
  - destruct Hr as ((o' & HA') & HX' & _ & Hr). apply (IH g o' E'); auto.
Qed.
Lemma history_net cs : forall ob rng, o_net (fst (fst (history seeding draw drawl (ob, rng) cs))) = last_net (o_net ob) cs.
Proof.
  induction cs as [|c cs IH]; intros ob rng; [reflexivity|]. cbn [history]. destruct c as [x ms ci|a seed| |E1]; cbn [exec last_net].
  - pose proof (st_forward_state ob x ms ci) as (N & _). destruct (st_forward ob x ms ci) as [ob' r]. cbn [fst] in N. specialize (IH ob' rng). rewrite N in IH.
    destruct (history seeding draw drawl (ob', rng) cs). exact IH.
  - assert (N: o_net (fst (fst (st_sample seeding draw drawl ob rng a seed))) = o_net ob) by apply st_sample_leaf.
    destruct (st_sample seeding draw drawl ob rng a seed) as [[ob' rng'] r]. cbn [fst] in N. specialize (IH ob' rng'). rewrite N in IH.
    destruct (history seeding draw drawl (ob', rng') cs). exact IH.
  - specialize (IH (mkObj (o_net ob) [] (o_on ob) (o_ins ob) (o_mix ob)) rng). destruct (history seeding draw drawl _ cs). exact IH.
  - specialize (IH (mkObj E1 (o_leaf ob) (o_on ob) (o_ins ob) (o_mix ob)) rng). destruct (history seeding draw drawl _ cs). exact IH.
Qed.
Lemma last_accepted cs : forall g o (E : einet V), valid_history g E cs -> lf_ctx (leafE E) = true -> accepted g o E ->
  (exists o', accepted g o' (last_net E cs)) /\ lf_ctx (leafE (last_net E cs)) = true /\ In (e_leaf (last_net E cs)) (leaves_of E cs).
Proof.
  induction cs as [|c cs IH]; intros g o E Hv HX HA; [cbn; eauto 6|].
  destruct c as [x ms ci|a seed| |E1]; cbn [last_net leaves_of valid_history] in *; try (apply (IH g o E (proj2 Hv) HX HA)).
  destruct Hv as (_ & (o1 & A1) & X1 & _ & Hv). destruct (IH g o1 E1 Hv X1 A1) as (I1 & I2 & I3). split; [exact I1|]. split; [exact I2|]. right. exact I3.
Qed.
End Trace.

(** After any valid history, every valid sampling call with evidence returns a completion of the evidence, and every call answers as a new
    object with the same parameters does.  Missing: calls with evidence that the network does not accept (C23_refuted). *)
Theorem C23_valid_partial : forall V G (seeding : Z -> G) draw drawl g o (E : einet V) rng cs,
  sound_draws draw drawl (leaves_of E cs) -> accepted g o E -> lf_ctx (leafE E) = true -> valid_history g E cs ->
  let s := fst (history seeding draw drawl (fresh E, rng) cs) in let E' := last_net E cs in
  o_net (fst s) = E' /\
  (forall a seed rng', snd (st_sample seeding draw drawl (fst s) rng' a seed) = snd (st_sample seeding draw drawl (fresh E') rng' a seed)) /\
  (forall x ms, snd (st_forward (fst s) x ms None) = forward E' x ms) /\
  (forall a e seed rng', a_ev a = Some e -> valid_call E' (Sample a seed) -> check_args E' a = Ok tt ->
     exists t, snd (st_sample seeding draw drawl (fst s) rng' a seed) = Ok t /\ shape t = shape e /\
     forall n c f, (n < size e 0)%nat -> (c < e_C E')%nat -> (f < e_F E')%nat ->
       match observed e (a_ms a) n c f with
       | Some v => entry t n c f = Some v
       | None => exists w, entry t n c f = Some w /\ lf_supp (leafE E') w = true
       end).
Proof.
  intros V G seeding draw drawl g o E rng cs HD HA HX Hv s E'.
  pose proof (valid_well seeding draw drawl cs g o E (fresh E) rng HD HA HX (fresh_clean E) eq_refl Hv) as Hw.
  destruct (C23_no_trace_partial V G seeding draw drawl E rng cs Hw) as (A & B & C). fold s in A, B, C.
  assert (EN: o_net (fst s) = E') by apply history_net. rewrite EN in A, B, C. split; [exact EN|]. split; [exact A|]. split; [exact C|]. intros a e seed rng' Ha Hc Hk. rewrite B.
  assert (HA': (exists o', accepted g o' E') /\ lf_ctx (leafE E') = true /\ In (e_leaf E') (leaves_of E cs)).
  { apply (last_accepted cs g o E); auto. }
  destruct HA' as ((o' & HA') & HX' & Hin). assert (HD1: sound_draws draw drawl [e_leaf E']) by (apply (sound_sub draw drawl _ _ HD); intros z [<-|[]]; exact Hin).
  apply (given_returns draw drawl g o' E' a e _ HD1 HA' HX' Ha); auto.
Qed.
Print Assumptions C23_valid_partial.
(** Conditional samples and an explanation, a rejected call, forward passes (one of them on data outside the support), new parameters. *)
Definition one_known : tensor (option nat) := mkT [1; 1; 2]%nat (fun i => match i with [_; _; 0%nat] => Some 1%nat | _ => None end).
Definition given_call mpe n ms : sargs (V := nat) := mkArgs n CNone (Some one_known) mpe false 1 ms.
Definition trace_ex : list (@call nat) :=
  [Sample (given_call false None None) (Some 5%Z); Forward (one_row 1 2 five) None None; Sample (given_call true None (Some [1%nat])) None;
   Sample (given_call false (Some 3%nat) None) None; Forward (one_row 1 2 zeros) None (Some 0%nat); Update bad5; Sample (given_call false None (Some [0; 1]%nat)) None].
Lemma one_known_evidence p ls (HP : forall key, 0 < p key < 1) (E := mkE 2 1 2 1 1 (LSimple (coin p 2 1 2 1) 2 [0; 1]%nat (argsort [0; 1]%nat)) None ls None None) ms :
  match ms with Some s => (forall f, In f s -> (f < 2)%nat) /\ In 1%nat s | None => True end -> evidence E 1 one_known ms.
Proof.
  intros Hm. split; [split|].
  - right. left. reflexivity.
  - intros n c f v Hn Hc Hf He. cbn in He. destruct f as [|[|f]]; cbn in He; try discriminate. injection He as <-. reflexivity.
  - destruct ms as [s|]; [|exact I]. destruct Hm as [H1 H2]. split; [exact H1|]. intros n c f Hn Hc Hf Hs. cbn in Hf |- *. destruct f as [|[|f]]; cbn; try discriminate; [contradiction|lia].
Qed.
Example C23_valid_ex : accepted bad4_g bad4_o bad4 /\ lf_ctx (leafE bad4) = true /\ valid_history bad4_g bad4 trace_ex /\
  sound_draws (fun (g : nat) w => ((g mod length w)%nat, S g)) (fun _ (g : nat) _ => (0%nat, S g)) (leaves_of bad4 trace_ex) /\
  exists t, snd (st_sample (fun z => Z.to_nat z) (fun g w => ((g mod length w)%nat, S g)) (fun _ g _ => (0%nat, S g))
      (fst (fst (history (fun z => Z.to_nat z) (fun g w => ((g mod length w)%nat, S g)) (fun _ g _ => (0%nat, S g)) (fresh bad4, 0%nat) trace_ex)))
      7%nat (given_call false None None) None) = Ok t /\ entry t 0 0 0 = Some 1%nat.
Proof.
  assert (HV: valid_history bad4_g bad4 trace_ex).
  { assert (P4: forall ms, match ms with Some s => (forall f, In f s -> (f < 2)%nat) /\ In 1%nat s | None => True end -> evidence bad4 1 one_known ms).
    { intros ms Hm. apply (one_known_evidence bad4_p [LEin bad4_L] bad4_p_ok ms Hm). }
    assert (P5: forall ms, match ms with Some s => (forall f, In f s -> (f < 2)%nat) /\ In 1%nat s | None => True end -> evidence bad5 1 one_known ms).
    { intros ms Hm. apply (one_known_evidence fair [LEin bad4_L] fair_ok ms Hm). }
    assert (S1: forall f, In f [1%nat] -> (f < 2)%nat) by (intros f [<-|[]]; lia).
    assert (S2: forall f, In f [0; 1]%nat -> (f < 2)%nat) by (intros f [<-|[<-|[]]]; lia).
    cbn [trace_ex valid_history valid_call given_call a_ev a_ms a_tsum a_mpe a_mpel orb].
    split; [split; [exists 1%nat; split; [lia|apply P4; exact I]|split; [lra|discriminate]]|].
    split; [exact I|].
    split; [split; [exists 1%nat; split; [lia|apply P4; split; [exact S1|left; reflexivity]]|split; [lra|]]|].
    { intros _. eexists. split; [reflexivity|]. intros c f l r _ _ _ _. cbn. destruct (Rle_dec _ _); reflexivity. }
    split; [split; [exists 1%nat; split; [lia|apply P4; exact I]|split; [lra|discriminate]]|].
    split; [exact I|]. split; [exact I|]. split; [exists bad5_o; exact bad5_accepted|]. split; [reflexivity|]. split; [reflexivity|].
    split; [split; [exists 1%nat; split; [lia|apply P5; split; [exact S2|right; left; reflexivity]]|split; [lra|discriminate]]|exact I]. }
  assert (HS: sound_draws (fun (g : nat) w => ((g mod length w)%nat, S g)) (fun _ (g : nat) _ => (0%nat, S g)) (leaves_of bad4 trace_ex)).
  { split.
    - intros g w Hw. cbn [fst]. apply Nat.mod_upper_bound. destruct w; [contradiction|discriminate].
    - intros ll g key Hin. cbn [trace_ex leaves_of In] in Hin. destruct Hin as [<-|[<-|[]]]; reflexivity. }
  split; [exact bad4_accepted|]. split; [reflexivity|]. split; [exact HV|]. split; [exact HS|].
  destruct (C23_valid_partial nat nat (fun z => Z.to_nat z) _ _ bad4_g bad4_o bad4 0%nat trace_ex HS bad4_accepted eq_refl HV) as (_ & _ & _ & H).
  cbv zeta in H. change (last_net bad4 trace_ex) with bad5 in H. destruct (H (given_call false None None) one_known None 7%nat eq_refl) as (t & Et & St & Gt).
  - cbn [valid_call given_call a_ev a_ms a_tsum a_mpe a_mpel orb]. split; [exists 1%nat; split; [lia|]|split; [lra|discriminate]]. apply (one_known_evidence fair [LEin bad4_L] fair_ok None I).
  - reflexivity.
  - exists t. split; [exact Et|]. exact (Gt 0%nat 0%nat 0%nat ltac:(cbn; lia) ltac:(cbn; lia) ltac:(cbn; lia)).
Qed.
