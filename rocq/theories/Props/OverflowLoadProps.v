(** * C73: from LoadIR to what is heard, in IEEE arithmetic *)
From Coq Require Import Reals Lra Lia ZArith Floats.SpecFloat.
From Flocq Require Import Core BinarySingleNaN.
From Verif.Model Require Import Base Arith ArithReal ArithSingle ArithIEEE Juce Float32 SmoothedValue Partitioning PartitionSchemes Convolver ConvolutionEngine Loader.
From Verif.Spec Require Import Transform Buffers Signal Routing Layout Precision PrecisionScheme Memory Engine Loading Overflow.
From Verif.Proofs Require Import Lists Blocks Streams Param SingleProof SingleReal RealFFTProof SingleFFT Ext ExtBounds OverflowProof OverflowExample
     IEEESingle IEEESmooth EngineHet.
From Verif.Spec Require Import Rounded PrecisionEngine Together OverflowLoad.
From Verif.Proofs Require Import EngineProof EngineRun LoaderProof LoaderFate LoaderMore.
From Verif.Props Require Import PartitionProps ConvolverProps WholeProps MemoryProps EngineMemoryProps LoaderProps TogetherProps PrecisionEngineProps OverflowProps OverflowEngineProps.
Open Scope R_scope.

(** ** Values of floats *)
Lemma finite_values X b : finite_below X b -> same_block b (values b) /\ block_below X (values b).
Proof.
  intros H. split.
  - red. unfold values. induction b as [|c b IH]; constructor; [|apply IH; intros d x Hd; apply H; now right].
    assert (Hc : forall x, In x c -> valid_binary 24 128 x = true /\ is_finite_SF x = true /\ Rabs (SF2R radix2 x) <= X) by (intros x Hx; apply (H c x); [now left|exact Hx]).
    clear - Hc. induction c as [|x c IH]; constructor; [|apply IH; intros y Hy; apply Hc; now right].
    destruct (Hc x (or_introl eq_refl)) as (H1 & H2 & _). split; [exact H1|]. split; [exact H2|reflexivity].
  - intros c x Hc Hx. unfold values in Hc. apply in_map_iff in Hc as (d & <- & Hd). apply in_map_iff in Hx as (y & <- & Hy). now apply (H d y).
Qed.
Lemma values_of b r : same_block b r -> r = values b.
Proof.
  intros H. red in H. unfold values. induction H as [|c c' b b' Hc _ IH]; cbn [map]; [reflexivity|]. f_equal; [|exact IH].
  clear - Hc. induction Hc as [|x y c c' (_ & _ & Hx) _ IH]; cbn [map]; [reflexivity|]. now f_equal.
Qed.
Lemma values_all bs rs : Forall2 same_block bs rs -> rs = map values bs.
Proof. induction 1 as [|b r bs rs Hb _ IH]; cbn [map]; [reflexivity|]. f_equal; [now apply values_of|exact IH]. Qed.
Lemma finite_all X u : (forall x, In x u -> finite_below X x) -> Forall2 same_block u (map values u) /\ forall x, In x (map values u) -> block_below X x.
Proof.
  intros H. split.
  - induction u as [|x u IH]; constructor; [apply (finite_values X); apply H; now left|apply IH; intros y Hy; apply H; now right].
  - intros x Hx. apply in_map_iff in Hx as (y & <- & Hy). apply (finite_values X). now apply H.
Qed.
Lemma values_shape cosf sinf powf pow n m (b : audio (IEEE cosf sinf powf)) : @block_of (IEEE cosf sinf powf) n m b -> @block_of (SingleWith pow) n m (values b).
Proof.
  intros [H1 H2]. split; [unfold values; rewrite map_length; exact H1|]. intros c Hc. unfold values in Hc. apply in_map_iff in Hc as (d & <- & Hd).
  rewrite map_length. now apply H2.
Qed.

(** ** Requests *)
Lemma F2_exists {X Y} (P : X -> Y -> Prop) l : (forall x, In x l -> exists y, P x y) -> exists l', Forall2 P l l'.
Proof.
  induction l as [|x l IH]; intros H; [exists []; constructor|]. destruct (H x (or_introl eq_refl)) as [y Hy].
  destruct IH as [l' Hl]; [intros z Hz; apply H; now right|]. exists (y :: l'). now constructor.
Qed.
Lemma run_lengths {A} (J : conv_if A) : forall x e1 e2 os, eng_run J e1 (map (Process J) x) = Ok (e2, os) -> length os = length x.
Proof.
  induction x as [|y x IH]; intros e1 e2 os X; cbn [map eng_run eng_step] in X; [now injection X as _ <-|].
  destruct (eng_process J e1 y) as [[e3 o]| |]; cbn [bind] in X; try discriminate.
  destruct (eng_run J e3 (map (Process J) x)) as [[e4 os']| |] eqn:X'; cbn [bind] in X; try discriminate. injection X as <- <-.
  cbn [app length]. f_equal. eapply IH; eauto.
Qed.

Lemma Rres_ok {X Y} (P : X -> Y -> Prop) x r : Rres P (Ok x) r -> exists y, r = Ok y /\ P x y.
Proof. intros H. inversion H; subst. eauto. Qed.

Lemma run_split {A} (J : conv_if A) e l1 l2 e1 o1 e2 o : eng_run J e (l1 ++ l2) = Ok (e2, o) -> eng_run J e l1 = Ok (e1, o1) ->
  exists o2, eng_run J e1 l2 = Ok (e2, o2) /\ o = o1 ++ o2.
Proof.
  intros E E1. rewrite EngineRun.run_app, E1 in E. cbn [bind] in E. destruct (eng_run J e1 l2) as [[e3 o3]| |]; cbn [bind] in E; try discriminate.
  injection E as <- <-. eauto.
Qed.

Section Load.
  Context {cosf sinf : nat -> spec_float} {powf : spec_float * spec_float -> nat -> spec_float * spec_float} {pow : R * R -> nat -> R * R}.
  Notation I := (IEEE cosf sinf powf).
  Notation F := (SingleWith pow).
  Variables (Ri : rfft I) (Rs : rfft F) (kt : nat) (tau : R) (w : nat).
  Hypothesis HRs : rfft_sized Rs.
  Hypothesis HRb : rfft_bounded (@rfft_fwd F Rs) (@rfft_inv F Rs).
  Hypothesis HRi : @same_transform I number (@rfft_fwd I Ri) (@rfft_inv I Ri) (@rfft_fwd F Rs) (@rfft_inv F Rs).
  Hypothesis (Htau : 0 <= tau <= / 4) (Hpow : pow_accurate pow (@cis F) (@cis_neg F) kt tau).
  Hypothesis Hroots : @same_roots I number kt pow.
  Hypothesis Hw : (0 < w)%nat.
  Notation Ji := (convolver_if Ri).
  Notation Js := (convolver_if Rs).
  Notation small r p := (@tame I (finite_below 65536) kt r p).

  Definition valued (r : audio I * conv_spec) : audio F * conv_spec := (values (fst r) : audio F, snd r).
  Lemma loadable_valued r p : loadable w r p -> loadable w (valued r) p.
  Proof.
    destruct r as [ir sp]. unfold valued. cbn [fst snd loadable]. assert (L : length (values ir) = length ir) by apply map_length. 
    intros (H1 & (m & H2 & H3) & H4). split; [refine (Nat.lt_le_trans _ _ _ H1 (Nat.eq_le_incl _ _ (eq_sym L)))|]. split.
    - exists m. split; [|exact H3]. refine (eq_ind_r (fun n => @block_of F n m (values ir)) _ L). now apply values_shape.
    - exact (eq_ind_r (fun n => (requested (Z.of_nat (ps_max_block p)) (cs_internal sp) <= 2 ^ 30)%Z /\ (n <= length (cs_in sp))%nat /\ (forall i, In i (firstn n (cs_in sp)) -> (i < w)%nat) /\
        (n <= length (cs_out sp))%nat /\ (forall o, In o (firstn n (cs_out sp)) -> (o < w)%nat)) H4 L).
  Qed.
  Lemma build_both r p c : loadable w r p -> small r p -> convolver_build Ri r p = Ok c ->
    exists c', convolver_build Rs (valued r) p = Ok c'.
  Proof.
    intros HL HT E. pose proof (loadable_valued r p HL) as HL'. destruct r as [ir sp]. unfold valued in *. cbn [fst snd] in *.
    destruct HT as (HB & H1024 & Hkt). destruct (finite_values _ _ HB) as [SB BB].
    destruct HL' as (Hn & (m & Hsh & Hm & H24) & Hreq & Hi & Hri & Ho & Hro).
    destruct (C18_block_size (Z.of_nat (ps_max_block p)) (cs_internal sp) Hreq) as (b & e' & Eb & Ee & He & Hsup & _).
    set (e := Z.to_nat e'). assert (Eb' : b = Z.of_nat (2 ^ e)) by (unfold e; rewrite Nat2Z.inj_pow, Z2Nat.id by lia; exact Ee).
    rewrite Eb' in Eb, Hsup. clearbody e. clear b e' Ee He Eb'.
    destruct Hsup as [results Hres]. destruct (PartitionProof.scheme_good (Z.of_nat (2 ^ e)) (Z.of_nat m) results Hres) as (l & El & _); [lia|].
    assert (X : Xmax = 65536) by (unfold Xmax; lra).
    assert (L : length (values ir) = length ir) by apply map_length.
    destruct (OverflowProof.two_runs cosf sinf powf pow Ri Rs HRs HRb HRi kt tau Htau Hpow Hroots w m ir (values ir) (ps_max_block p) sp e l Eb Hw)
      as (c1 & c1' & _ & E2 & _); try assumption.
    - split; [exact Hn|]. refine (eq_ind_r (fun n => (n <= 1024)%nat) H1024 L).
    - apply (Hkt m e l); try assumption. destruct HL as (_ & (m2 & Hsh2 & _) & _). assert (m2 = m) as ->; [|exact Hsh2].
      destruct ir as [|c0 ir]; [cbn in Hn; lia|]. destruct Hsh as [_ Hsh], Hsh2 as [_ Hsh2].
      rewrite <- (Hsh2 c0 (or_introl eq_refl)). etransitivity; [|exact (Hsh _ (or_introl eq_refl))]. symmetry. apply map_length.
    - rewrite X. exact BB.
    - exists c1'. exact E2.
  Qed.
  Lemma build_alike r p c c' : loadable w r p -> small r p -> convolver_build Ri r p = Ok c -> convolver_build Rs (valued r) p = Ok c' ->
    made_alike Ri Rs kt w c c'.
  Proof.
    intros HL HT E E'. pose proof (loadable_valued r p HL) as HL'. destruct r as [ir sp]. unfold valued in *. cbn [fst snd] in *.
    destruct (loadable_made Rs w _ sp p c' Hw HL' E') as (m & Hm & W). destruct HT as (HB & H1024 & Hkt). destruct (finite_values _ _ HB) as [SB BB].
    assert (L : length (values ir) = length ir) by apply map_length.
    exists m, ir, (values ir), (ps_max_block p), sp. split; [exact W|]. split; [exact E|]. split; [exact SB|]. split; [exact BB|].
    split; [exact (eq_ind_r (fun n => (n <= 1024)%nat) H1024 L)|]. intros e l Eb El. apply (Hkt m e l); try assumption.
    destruct HL as (_ & (m2 & Hsh2 & _) & _). assert (m2 = m) as ->; [|exact Hsh2].
    destruct HL' as (Hn & _). destruct ir as [|c0 ir]; [cbn in Hn; lia|]. destruct Hm as [_ Hsh], Hsh2 as [_ Hsh2].
    rewrite <- (Hsh2 c0 (or_introl eq_refl)). etransitivity; [|exact (Hsh _ (or_introl eq_refl))]. symmetry. apply map_length.
  Qed.

  (** the same history in real numbers *)
  Section Mirror.
    Variables (tr : list (event (audio I * conv_spec) (convolver I))) (en : nat) (ps : list process_spec).
    Hypothesis HLd : forall t' id' r p, In (Began t' id' en r) tr -> In p ps -> loadable w r p /\ small r p.
    Definition built (h : held Ji) (t : nat) r p : Prop := In (Began t (h_id Ji h) en r) tr /\ In p ps /\ convolver_build Ri r p = Ok (h_cv Ji h : convolver I).
    Definition hm (h : held Ji) (h' : held Js) : Prop :=
      h_id Ji h = h_id Js h' /\ exists t r p, built h t r p /\ convolver_build Rs (valued r) p = Ok (h_cv Js h' : convolver F).
    Inductive am : action Ji -> action Js -> Prop :=
    | AmDeliver h h' : hm h h' -> am (Deliver Ji h) (Deliver Js h')
    | AmDispose : am (Dispose _) (Dispose _)
    | AmRelease : am (Release _) (Release _).
    Inductive om : op Ji -> op Js -> Prop :=
    | OmPrepare s : (ps_rate_num s <= 1000000 * ps_rate_den s)%Z -> om (Prepare _ s) (Prepare _ s)
    | OmProcess (b : audio I) : finite_below 65536 b -> om (Process Ji b) (Process Js (values b : audio F))
    | OmReset : om (Reset _) (Reset _)
    | OmClear : om (Clear _) (Clear _)
    | OmOthers l l' : Forall2 am l l' -> om (Others _ l) (Others _ l').
    Lemma hm_exists h : (exists t r p, built h t r p) -> exists h', hm h h'.
    Proof.
      intros (t & r & p & HB & HP & E). destruct (HLd t _ r p HB HP) as [H1 H2]. destruct (build_both r p _ H1 H2 E) as (c' & E').
      exists {| h_id := h_id Ji h; h_cv := c' : cv Js |}. split; [reflexivity|]. exists t, r, p. split; [split; auto|exact E'].
    Qed.
    Lemma am_exists a : (forall h, a = Deliver Ji h -> exists t r p, built h t r p) -> exists a', am a a'.
    Proof.
      destruct a as [h| |]; intros H; [|eexists; constructor..]. destruct (hm_exists h (H h eq_refl)) as [h' Hh]. exists (Deliver Js h'). now constructor.
    Qed.
    Lemma am_all l : (forall h, In (Deliver Ji h) l -> exists t r p, built h t r p) -> exists l', Forall2 am l l'.
    Proof. intros H. apply F2_exists. intros a Ha. apply am_exists. intros h ->. now apply H. Qed.
    Lemma am_same l l' : Forall2 am l l' -> Forall2 (same_action Ri Rs kt w) l l'.
    Proof.
      induction 1 as [|a a' l l' Ha _ IH]; constructor; auto. destruct Ha as [h h' (E & t & r & p & (H1 & H2 & H3) & H4)| |]; [|constructor..].
      destruct h as [i c], h' as [i' c']. cbn [h_id h_cv] in *. subst i'. constructor. destruct (HLd t _ r p H1 H2) as [L1 L2]. now apply (build_alike r p).
    Qed.
    Lemma om_same l l' : Forall2 om l l' -> Forall2 (same_op Ri Rs kt w) l l'.
    Proof.
      induction 1 as [|o o' l l' Ho _ IH]; constructor; auto. destruct Ho as [s Hs|b Hb| | |a a' Ha]; try (constructor; fail).
      - now constructor.
      - destruct (finite_values _ _ Hb). now constructor.
      - constructor. now apply am_same.
    Qed.
    Lemma om_legal l l' : Forall2 om l l' -> forall P, legal Ji w (fun _ => True) P l -> legal Js w (fun _ => True) P l'.
    Proof.
      induction 1 as [|o o' l l' Ho _ IH]; intros P HL; [exact HL|]. destruct Ho as [s Hs|b Hb| | |a a' Ha]; cbn [legal] in *; destruct HL as [H1 HL]; (split; [|auto]); auto.
      - destruct H1 as (M & m & E & Hm & Bm). exists M, m. split; [exact E|]. split; [exact Hm|]. now apply values_shape.
      - intros x _. exact Logic.I.
    Qed.
    Lemma om_spec l l' : Forall2 om l l' -> forall s, last_spec s l = last_spec s l'.
    Proof. induction 1 as [|o o' l l' Ho _ IH]; intros s; [reflexivity|]. destruct Ho; cbn [last_spec]; auto. Qed.
    Lemma om_blocks l l' : Forall2 om l l' -> blocks_in Js l' = map values (blocks_in Ji l).
    Proof.
      induction 1 as [|o o' l l' Ho _ IH]; [reflexivity|]. destruct Ho; cbn [blocks_in flat_map app map] in *; auto.
      f_equal. exact IH.
    Qed.
    Lemma om_restarts o o' : om o o' -> restarts o' -> restarts o.
    Proof. intros []; cbn; auto. Qed.
    Lemma am_delivers l l' h' : Forall2 am l l' -> In (Deliver Js h') l' -> exists h, In (Deliver Ji h) l /\ hm h h'.
    Proof.
      induction 1 as [|a a' l l' Ha _ IH]; intros Hh; [destruct Hh|]. destruct Hh as [E|Hh].
      - subst a'. inversion Ha; subst. exists h. split; [now left|assumption].
      - destruct (IH Hh) as (h & H1 & H2). exists h. split; [now right|exact H2].
    Qed.
    Lemma om_delivers env env' l l' h' : Forall2 (Forall2 am) env env' -> Forall2 om l l' -> delivers env' l' h' -> exists h, delivers env l h /\ hm h h'.
    Proof.
      intros HV HL [(a & Ha & Hh)|(a & Ha & Hh)].
      - induction HV as [|x x' e e' Hx _ IH]; [destruct Ha|]. destruct Ha as [E|Ha].
        + subst x'. destruct (am_delivers _ _ _ Hx Hh) as (h & H1 & H2). exists h. split; [|exact H2]. left. exists x. split; [now left|exact H1].
        + destruct (IH Ha) as (h & [(y & Y1 & Y2)|H1] & H2); exists h; (split; [|exact H2]); [left; exists y; split; [now right|exact Y2]|now right].
      - clear HV. induction HL as [|x x' e e' Hx _ IH]; [destruct Ha|]. destruct Ha as [E|Ha].
        + rewrite E in Hx. inversion Hx; subst. destruct (am_delivers _ _ _ H1 Hh) as (h & G1 & G2). exists h. split; [|exact G2]. right. eexists. split; [now left|exact G1].
        + destruct (IH Ha) as (h & [H1|(y & Y1 & Y2)] & H2); exists h; (split; [|exact H2]); [now left|right; exists y; split; [now right|exact Y2]].
    Qed.
  End Mirror.

  Notation bothc := (both Ri Rs kt w : cv Ji -> cv Js -> Prop).
  Lemma related_line P (e : engine Ji) (e' : engine Js) : erel Ji Js w bothc (@smrel cosf sinf powf pow) short P e e' -> length (line e) = length (line e').
  Proof.
    intros HE. unfold line. rewrite !map_length. unfold in_line. rewrite !app_length.
    assert (S : forall o o', orel Ji Js bothc o o' -> length (match o with Some h => [h] | None => [] end) = length (match o' with Some h => [h] | None => [] end)) by (intros o o' []; reflexivity).
    rewrite (S _ _ (r_conv _ _ _ _ _ _ _ _ _ HE)), (S _ _ (r_fade _ _ _ _ _ _ _ _ _ HE)), (S _ _ (r_pend _ _ _ _ _ _ _ _ _ HE)), (F2_length (r_cmds _ _ _ _ _ _ _ _ _ HE)). reflexivity.
  Qed.
  Lemma related_loads P (e : engine Ji) (e' : engine Js) : erel Ji Js w bothc (@smrel cosf sinf powf pow) short P e e' -> no_loads e -> no_loads e'.
  Proof.
    intros HE Hn l' Hl h' Hh. pose proof (r_env _ _ _ _ _ _ _ _ _ HE) as HV. red in Hn. revert Hn. induction HV as [|x x' v v' Hx _ IH]; intros Hn; [destruct Hl|].
    destruct Hl as [<-|Hl]; [|apply IH; auto; intros y Hy; apply Hn; now right]. specialize (Hn x (or_introl eq_refl)). clear IH.
    induction Hx as [|a a' x x' Ha _ IH]; [destruct Hh|]. destruct Hh as [E|Hh]; [|apply IH; auto; intros h Hh2; apply (Hn h); now right].
    subst a'. inversion Ha; subst. eapply Hn. now left.
  Qed.
  (** two engines given the same calls, at every moment *)
  Lemma run_both env env' l l' : Forall2 (Forall2 (same_action Ri Rs kt w)) env env' -> Forall2 (same_op Ri Rs kt w) l l' -> legal Js w (fun _ => True) None l' ->
    Rres (fun p p' => exists P, erel Ji Js w bothc (@smrel cosf sinf powf pow) short P (fst p) (fst p')) (eng_run Ji (eng_new Ji env) l) (eng_run Js (eng_new Js env') l').
  Proof.
    intros HV HL Hleg. pose proof (engines_ok Ri Rs kt tau w HRs HRb HRi Htau Hpow Hroots Hw) as HO.
    assert (HV2 : Forall2 (Forall2 (arel Ji Js bothc)) env env') by (clear - HV; induction HV; constructor; auto; now apply same_acts).
    pose proof (run_rel Ji Js w _ _ _ _ _ _ _ _ Hw HO None l l' (same_ops Ri Rs kt w l l' HL None Hleg) _ _ (new_rel Ji Js w _ _ _ _ _ _ _ _ HO env env' HV2)) as HR.
    inversion HR as [x y [HX _] E1 E2|E1 E2|E1 E2]; constructor. exact HX.
  Qed.
  Lemma legal_prefix {A} (J : conv_if A) ok : forall l1 l2 P, legal J w ok P (l1 ++ l2) -> legal J w ok P l1.
  Proof. induction l1 as [|o l1 IH]; intros l2 P H; [exact Logic.I|]. destruct o; cbn [legal app] in *; destruct H as [H1 H2]; (split; [exact H1|eapply IH; exact H2]). Qed.
  Lemma unhurried_both env env' l l' : Forall2 (Forall2 (same_action Ri Rs kt w)) env env' -> Forall2 (same_op Ri Rs kt w) l l' -> legal Js w (fun _ => True) None l' ->
    unhurried (eng_new Ji env) l -> unhurried (eng_new Js env') l'.
  Proof.
    intros HV HL Hleg Hu l1' o' l2' e1' outs' E Hr E1. subst l'. apply Forall2_app_inv_r in HL as (l1 & l2 & H1 & H2 & ->).
    inversion H2 as [|o ? l2a ? Ho H3]; subst. pose proof (run_both env env' l1 l1' HV H1 (legal_prefix Js _ _ _ _ Hleg)) as HR. rewrite E1 in HR.
    inversion HR as [[e1 outs] y [P HE] EQ1 EQ2| |]; subst. cbn [fst] in HE.
    rewrite <- (related_line _ _ _ HE). refine (Hu l1 o l2a e1 outs eq_refl _ (eq_sym EQ1)). destruct Ho; cbn in *; auto.
  Qed.
End Load.

Lemma legal_more {A} (J : conv_if A) w s : forall (rs : list (audio A)), fits w (ps_max_block s) rs -> forall l sp P,
  match sp with Some s0 => P = Some (ps_max_block s0) | None => P = None end -> legal J w (fun _ => True) P l -> last_spec sp l = Some s ->
  legal J w (fun _ => True) P (l ++ map (Process J) rs).
Proof.
  intros rs Hf. assert (HP1 : legal J w (fun _ => True) (Some (ps_max_block s)) (map (Process J) rs)).
  { induction rs as [|x u IH]; cbn [map legal]; [exact Logic.I|]. split.
    - destruct (Hf x (or_introl eq_refl)) as (k & K1 & K2). eauto.
    - apply IH. intros y Hy. apply Hf. now right. }
  induction l as [|o l IH]; intros sp P HP HL HS.
  - cbn [last_spec] in HS. subst sp. cbn in HP. subst P. exact HP1.
  - destruct o; cbn [legal last_spec app] in *; destruct HL as [H1 H2]; (split; [exact H1|]);
      [apply (IH (Some s0) (Some (ps_max_block s0)) eq_refl H2 HS)|apply (IH sp P HP H2 HS)..].
Qed.
Lemma same_finite bs rs : Forall2 same_block bs rs -> forall x c y, In x bs -> In c x -> In y c -> is_finite_SF y = true.
Proof.
  intros H x c y Hx Hc Hy. induction H as [|b r bs rs Hb _ IH]; [destruct Hx|]. destruct Hx as [->|Hx]; [|auto]. clear IH. red in Hb.
  induction Hb as [|d d' x r Hd _ IH]; [destruct Hc|]. destruct Hc as [->|Hc]; [|auto]. clear IH.
  induction Hd as [|z z' c d' Hz _ IH]; [destruct Hy|]. destruct Hy as [->|Hy]; [apply Hz|auto].
Qed.

(** C73.  C53 and C64 for the program as it runs, in IEEE arithmetic.  [tr] is what happened in the loader: LoadIR was called (load
    number [id], the last one on engine [en]) after a prepare, nobody cancelled it, and nothing is going on any more.  [env], [l], [eng]
    are the history and the state of that engine.  All responses are loadable and tame, all blocks are finite and at most 65536 in size,
    the sample rates are at most 1 MHz.  Then nothing put out is infinite or NaN, and once the settling time and the length [m] of the
    response have passed, every value is within the error of C64 of the exact convolution of everything passed to process with the
    response passed to that LoadIR call. *)
Theorem C73_from_LoadIR_to_sound : forall cosf sinf powf pow (Ri : rfft (IEEE cosf sinf powf)) (Rs : rfft (SingleWith pow)) kt tau (delta : R) w,
  rfft_sized Rs -> rfft_bounded (@rfft_fwd _ Rs) (@rfft_inv _ Rs) ->
  @same_transform (IEEE cosf sinf powf) number (rfft_fwd Ri) (rfft_inv Ri) (@rfft_fwd _ Rs) (@rfft_inv _ Rs) ->
  0 <= tau <= / 4 -> pow_accurate pow (@cis (SingleWith pow)) (@cis_neg (SingleWith pow)) kt tau ->
  @same_roots (IEEE cosf sinf powf) number kt pow -> (0 < w)%nat ->
  let A := IEEE cosf sinf powf in
  let I := convolver_if Ri in
  forall workers ms st tr, load_run (convolver_build Ri) workers load_new ms = Ok (st, tr) -> quiescent st ->
  forall tr1 t id en (ir : audio A) sp tr2, tr = tr1 ++ Began t id en (ir, sp) :: tr2 -> began en tr2 = [] -> last_prepared en tr1 <> None ->
  (forall id' e', In (Cancelled id' e') tr2 -> id' = id) ->
  forall env l s eng b outs0,
  legal I w (fun _ => True) None l -> last_spec None l = Some s -> eng_run I (eng_new I env) l = Ok (eng, outs0) ->
  unhurried (eng_new I env) l -> no_loads eng -> engine_bounds s = Ok b ->
  @same_execution A I (audio A * conv_spec) en tr env l (e_log I eng) ->
  (forall t' id' r p, In (Began t' id' en r) tr -> In p (prepares l) -> loadable w r p /\ @tame A (finite_below 65536) kt r p) ->
  (forall p, In p (prepares l) -> (ps_rate_num p <= 1000000 * ps_rate_den p)%Z) ->
  (forall m p, block_of (length ir) m ir -> In p (prepares l) -> precise Rs delta tau m (ps_max_block p) sp) ->
  ~ In (Rejected id) (e_log I eng) -> (forall log1 log2, e_log I eng = log1 ++ Delivered id :: log2 -> ~ In ClearCalled log2) ->
  forall bs bs' : list (audio A), fits w (ps_max_block s) bs -> fits w (ps_max_block s) bs' -> (settling_time b (ps_max_block s) <= total bs)%nat ->
  (forall x, In x (blocks_in I l ++ bs ++ bs') -> finite_below 65536 x) ->
  exists m p eng' outs outs', block_of (length ir) m ir /\ In p (prepares l) /\
    eng_run I eng (map (Process I) (bs ++ bs')) = Ok (eng', outs ++ outs') /\ length outs = length bs /\ length outs' = length bs' /\
    (forall x c y, In x (outs0 ++ outs ++ outs') -> In c x -> In y c -> is_finite_SF y = true) /\
    forall X, peak_below X (map values (blocks_in I l ++ bs ++ bs')) ->
    forall o t, (o < w)%nat -> (m <= t < total bs')%nat ->
      Rabs (nth t (@channel Rarith o (map values outs')) 0 -
            nth (total (blocks_in I l ++ bs) + t)
                (@mixed Rarith (length ir) (fun c => nth c (values ir) []) (cs_in sp) (cs_out sp) (map values (blocks_in I l ++ bs ++ bs')) o) 0)
      <= convolver_error delta tau m (ps_max_block p) (values ir) sp X o.
Proof.
  intros cosf sinf powf pow Ri Rs kt tau delta w HRs HRb HRi Htau Hpow Hroots Hw A I workers ms st tr ER HQ tr1 t id en ir sp tr2 Etr Hlast Hprep Hc
    env l s eng b outs0 Hl Hs E0 Hu Hn Eb HX HLd Hrate HPr HRj HCl bs bs' Hf Hf' Ht Hfin.
  set (F := SingleWith pow) in *. set (J := convolver_if Rs).
  destruct (load_in_charge Ri workers ms st tr ER HQ tr1 t id en ir sp tr2 Etr Hlast Hprep Hc w Hw env l eng HX (fun t' id' r p H1 H2 => proj1 (HLd t' id' r p H1 H2)) HRj HCl) as (HLt & _ & _).
  destruct HX as (X1 & X2 & X3).
  change (prepares l = @prepared (audio A * conv_spec) (convolver A) en tr) in X3.
  assert (HBu : forall h, delivers env l h -> exists t r p, built Ri tr en (prepares l) h t r p).
  { intros h Hh. apply X1 in Hh. destruct (C49_built_from _ _ ms st tr ER _ _ _ Hh) as (t' & r & p' & y1 & y2 & y3 & Ey & Hlp & Hb).
    exists t', r, p'. split; [rewrite Ey; apply in_elt|]. split; [|exact Hb]. rewrite X3, Ey.
    pose proof (last_prepared_in en _ (Queued (h_id I h) en :: y3) p' Hlp) as Q. rewrite <- app_assoc in Q. exact Q. }
  assert (HV : exists env', Forall2 (Forall2 (am Ri Rs tr en (prepares l))) env env').
  { apply F2_exists. intros a Ha. apply (am_all Ri Rs kt tau w HRs HRb HRi Htau Hpow Hroots Hw tr en (prepares l) HLd). intros h Hh. apply HBu. left. eauto. }
  assert (HL : exists l', Forall2 (om Ri Rs tr en (prepares l)) l l').
  { apply F2_exists. intros o Ho. destruct o as [s0|x| | |a].
    - exists (Prepare J s0). constructor. apply Hrate. unfold prepares. apply in_flat_map. exists (Prepare I s0). split; [exact Ho|now left].
    - exists (Process J (values x : audio F)). constructor. apply Hfin. apply in_app_iff. left. unfold blocks_in. apply in_flat_map. exists (Process I x). split; [exact Ho|now left].
    - exists (Reset J). constructor.
    - exists (Clear J). constructor.
    - destruct (am_all Ri Rs kt tau w HRs HRb HRi Htau Hpow Hroots Hw tr en (prepares l) HLd a) as [a' Ha].
      { intros h Hh. apply HBu. right. eauto. }
      exists (Others J a'). now constructor. }
  destruct HV as [env' HV], HL as [l' HL].
  assert (SV : Forall2 (Forall2 (same_action Ri Rs kt w)) env env').
  { clear - HV HLd Hw. induction HV as [|a a' e e' Ha _ IH]; constructor; auto. apply (am_same Ri Rs kt w Hw tr en (prepares l) HLd); exact Ha. }
  pose proof (om_same Ri Rs kt w Hw tr en (prepares l) HLd l l' HL) as SL.
  pose proof (om_legal Ri Rs w tr en (prepares l) l l' HL None Hl) as Hl'.
  pose proof (om_blocks Ri Rs tr en (prepares l) l l' HL) as EBl.
  assert (Hs' : last_spec None l' = Some s) by (rewrite <- (om_spec Ri Rs tr en (prepares l) l l' HL None); exact Hs).
  pose proof (unhurried_both Ri Rs kt tau w HRs HRb HRi Htau Hpow Hroots Hw env env' l l' SV SL Hl' Hu) as Hu'.
  pose proof (run_both Ri Rs kt tau w HRs HRb HRi Htau Hpow Hroots Hw env env' l l' SV SL Hl') as HR.
  fold I in HR. rewrite E0 in HR. destruct (Rres_ok _ _ _ HR) as ([er outsr] & EQ2 & P & HE). cbn [fst] in HE.
  pose proof (related_loads Ri Rs kt w P eng er HE Hn) as Hn'.
  assert (SBs : Forall2 same_block (bs ++ bs') (map values bs ++ map values bs') /\ forall x, In x (map values bs ++ map values bs') -> block_below 65536 x).
  { pose proof (finite_all 65536 (bs ++ bs') (fun x Hx => Hfin x (in_or_app _ _ x (or_intror Hx)))) as Q.
    refine (eq_ind _ (fun z => Forall2 same_block (bs ++ bs') z /\ forall x, In x z -> block_below 65536 x) Q _ (map_app values bs bs')). }
  destruct SBs as [SB BB].
  assert (FV : forall M (u : list (audio A)), fits w M u -> @fits F w M (map values u)).
  { intros M u Hu2 x Hx. apply in_map_iff in Hx as (y & <- & Hy). destruct (Hu2 y Hy) as (k & K1 & K2). exists k. split; [exact K1|]. now apply (values_shape cosf sinf powf pow). }
  assert (TV : forall (u : list (audio A)), @total F (map values u) = total u).
  { intros u. unfold total. f_equal. rewrite map_map. apply map_ext. intros [|c x]; [reflexivity|]. cbn. apply map_length. }
  destruct (C73_last_response_is_heard cosf sinf powf pow Ri Rs kt tau delta w HRs HRb HRi Htau Hpow Hroots Hw env env' l l' bs (map values bs) bs' (map values bs') SV SL SB
    (eq_sym (map_length _ _)) BB Hl' s er b outsr Hs' EQ2 Hu' Hn' Eb id) as (h0 & D0 & Hid & HH).
  { rewrite <- (r_log _ _ _ _ _ _ _ _ _ HE). exact HLt. }
  { now apply FV. }
  { refine (eq_ind_r (fun n => (_ <= n)%nat) Ht (TV bs)). }
  { now apply FV. }
  destruct (om_delivers Ri Rs tr en (prepares l) env env' l l' h0 HV HL D0) as (h & Dh & Ehid & t' & r & p & (HB1 & HP1 & Hb1) & Hb2).
  rewrite Hid in Ehid. rewrite Ehid in HB1.
  destruct (all_reached _ _ _ _ _ ER) as (_ & _ & HFl & _).
  assert (HB2 : In (Began t id en (ir, sp)) tr) by (rewrite Etr; apply in_elt).
  destruct (f_unique _ _ HFl _ _ _ _ _ _ _ HB1 HB2) as [_ ->].
  destruct (HLd _ _ _ _ HB2 HP1) as [HL1 _].
  destruct (loadable_made Rs w (values ir) sp p _ Hw (loadable_valued w (ir, sp) p HL1) Hb2) as (m & Hm & W).
  assert (Lir : length (values ir) = length ir) by apply map_length.
  assert (Hm0 : block_of (length ir) m ir).
  { split; [reflexivity|]. intros c Hch. destruct Hm as [_ Hm]. etransitivity; [|apply (Hm (map (SF2R radix2) c)); apply in_map; exact Hch]. symmetry. apply map_length. }
  destruct (HH m (values ir) (ps_max_block p) sp W (HPr m p Hm0 HP1)) as (e & before & during & outs & outs' & Q1 & Q2 & Q3 & Q4 & Q5).
  destruct (run_split I _ _ _ _ _ _ _ Q1 E0) as (o2 & E2 & EO). symmetry in EO.
  pose proof (run_lengths I _ _ _ _ E2) as L2. rewrite app_length in L2.
  assert (outs0 = before /\ o2 = during ++ outs) as [-> ->].
  { assert (LL : length outs0 = length before) by (apply (f_equal (@length _)) in EO; rewrite !app_length in EO; lia).
    clear - EO LL. revert before EO LL. induction outs0 as [|x u IH]; intros [|y v] EO LL; cbn in *; try lia; [auto|].
    injection EO as -> EO. destruct (IH v EO ltac:(lia)) as [-> ->]. auto. }
  exists m, p, e, during, outs. split; [exact Hm0|]. split; [exact HP1|]. split; [exact E2|]. split; [exact Q2|]. split; [exact Q3|].
  split.
  { assert (SL2 : Forall2 (same_op Ri Rs kt w) (l ++ map (Process I) (bs ++ bs')) (l' ++ map (Process J) (map values bs ++ map values bs'))).
    { apply Forall2_app; [exact SL|]. clear - SB BB. revert SB BB. generalize (bs ++ bs') (map values bs ++ map values bs'). induction 1 as [|x x' u u' Hx _ IH]; intros BB; cbn [map]; constructor.
      - constructor; [exact Hx|]. apply BB. now left.
      - apply IH. intros y Hy. apply BB. now right. }
    assert (Hleg2 : legal J w (fun _ => True) None (l' ++ map (Process J) (map values bs ++ map values bs'))).
    { apply (legal_more J w s) with (sp := None); auto. intros x Hx. apply in_app_iff in Hx as [Hx|Hx]; [now apply (FV _ bs Hf)|now apply (FV _ bs' Hf')]. }
    destruct (C73_engine_no_overflow cosf sinf powf pow Ri Rs kt tau w HRs HRb HRi Htau Hpow Hroots Hw env env' _ _ SV SL2 Hleg2) as (e3 & o3 & e4 & o4 & R1 & _ & R3 & _).
    destruct (run_split I _ _ _ _ _ _ _ R1 E0) as (o5 & E5 & ->). assert (EE : Ok (e3, o5) = Ok (e, during ++ outs)) by (etransitivity; [symmetry; exact E5|exact E2]).
    injection EE as _ ->. exact (same_finite _ _ R3). }
  intros X HPk o t0 Ho Htt. assert (EV : outs' = map values outs) by (apply values_all; exact Q4). subst outs'.
  assert (EM : blocks_in J l' ++ map values bs ++ map values bs' = map values (blocks_in I l ++ bs ++ bs')).
  { rewrite !map_app. f_equal. exact EBl. }
  assert (ET : @total F (blocks_in J l' ++ map values bs) = total (blocks_in I l ++ bs)).
  { etransitivity; [|apply TV]. f_equal. rewrite map_app. f_equal. exact EBl. }
  pose proof (Q5 X (eq_ind_r (peak_below X) HPk EM) o t0 Ho (eq_ind_r (fun n => (m <= t0 < n)%nat) Htt (TV bs'))) as Q6.
  refine (Rle_trans _ _ _ (Req_le _ _ _) Q6). f_equal. f_equal.
  assert (EX : forall n1 n2 k1 k2 (B1 B2 : list (audio Rarith)), n1 = n2 -> k1 = k2 -> B1 = B2 ->
    nth (n1 + t0) (@mixed Rarith k1 (fun c => nth c (values ir) []) (cs_in sp) (cs_out sp) B1 o) 0 = nth (n2 + t0) (@mixed Rarith k2 (fun c => nth c (values ir) []) (cs_in sp) (cs_out sp) B2 o) 0) by (intros; subst; reflexivity).
  apply EX; symmetry; assumption.
Qed.
Print Assumptions C73_from_LoadIR_to_sound.

Lemma stereo_length {A : arith} (ir : audio A) n m : block_of 2 n ir -> block_of (length ir) m ir -> m = n.
Proof. intros [L Hn] [_ Hm]. destruct ir as [|d ir]; [discriminate|]. rewrite <- (Hm d (or_introl eq_refl)). apply Hn. now left. Qed.
Lemma stereo_made {A : arith} (R : rfft A) (ir : audio A) c : length ir = 2%nat -> block_of 2 5000 ir -> conv_make R ir 64 (stereo kCrossfade) = Ok c ->
  well_made R 2 5000 ir 64 (stereo kCrossfade) c.
Proof.
  intros L2 Bir Ec. red. cbv zeta. rewrite L2. split; [lia|]. split; [lia|]. split; [exact Bir|]. split; [lia|]. split; [lia|]. split; [cbn; lia|]. split; [cbn; lia|].
  split; [intros i [<-|[<-|[]]]; lia|]. split; [cbn; lia|]. split; [intros i [<-|[<-|[]]]; lia|exact Ec].
Qed.
(** With the concrete library (OverflowExample.v): prepare for 44.1 kHz and blocks of 64 samples, one LoadIR call with a stereo response
    of 5000 samples, one job that runs after it; then any blocks of finite samples up to 65536. *)
Example C73_from_LoadIR_example :
  let F := SingleWith rounded_power in
  let A := IEEE OverflowExample.cosf OverflowExample.sinf OverflowExample.powf in
  let I := convolver_if TI in
  let ir : audio A := floats [tab 5000 (fun i => INR (i mod 7)); tab 5000 (fun i => - INR i)] in
  exists st c eng,
    let l := [Prepare I spec44; Others I [Deliver I {| h_id := 0; h_cv := c : cv I |}]] in
    let tr := [Prepared 0 spec44; ResetDone 0 false; Began 3 0 0 (ir, stereo kCrossfade); Cancelled 0 0; Notified 0 true; Queued 0 0; Returned 3 0 0;
               Pushed 0 0 c; Notified 0 false] in
    load_run (convolver_build TI) 1 load_new (one_load (ir, stereo kCrossfade) spec44 false) = Ok (st, tr) /\
    eng_run I (eng_new I []) l = Ok (eng, []) /\ @same_execution A I _ 0 tr [] l (e_log I eng) /\
    forall bs bs' : list (audio A), fits 2 64 bs -> fits 2 64 bs' -> (settling_time bounds44 64 <= total bs)%nat ->
    (forall x, In x (bs ++ bs') -> finite_below 65536 x) ->
    exists eng' outs outs', eng_run I eng (map (Process I) (bs ++ bs')) = Ok (eng', outs ++ outs') /\ length outs = length bs /\ length outs' = length bs' /\
      (forall x c y, In x (outs ++ outs') -> In c x -> In y c -> is_finite_SF y = true) /\
      forall X, peak_below X (map values (bs ++ bs')) -> forall o t, (o < 2)%nat -> (5000 <= t < total bs')%nat ->
        Rabs (nth t (@channel Rarith o (map values outs')) 0 -
              nth (total bs + t) (@mixed Rarith 2 (fun c => nth c (values ir) []) [0; 1]%nat [1; 0]%nat (map values (bs ++ bs')) o) 0)
        <= convolver_error (transform_error tau12 7) tau12 5000 64 (values ir) (stereo kCrossfade) X o.
Proof.
  intros F A I ir. set (irR := [tab 5000 (fun i => INR (i mod 7)); tab 5000 (fun i => - INR i)] : audio F).
  assert (G : forall c x, In c irR -> In x c -> OverflowExample.holds x /\ Rabs x <= 65536).
  { intros c x [<-|[<-|[]]] Hx; apply in_tab in Hx as (i & Hi & ->).
    - apply ints_hold. pose proof (Nat.mod_upper_bound i 7). lia.
    - now apply opp_hold. }
  assert (ES : conv_block_size (Z.of_nat 64) None = Ok (Z.of_nat (2 ^ 6))) by (vm_compute; reflexivity).
  assert (EP : GetPartitionScheme kGarciaResults (Z.of_nat (2 ^ 6)) (Z.of_nat 5000) = Ok [{| pl_size := 1; pl_num := 9 |}; {| pl_size := 4; pl_num := 18 |}]) by (vm_compute; reflexivity).
  assert (M1 : exists c c', conv_make TI (floats irR) 64 (stereo kCrossfade) = Ok c /\ well_made (@RealFFTProof.fast_rfft F) 2 5000 irR 64 (stereo kCrossfade) c' /\
                 made_alike TI (@RealFFTProof.fast_rfft F) 9 2 c c').
  { apply (floats_make 64 6 [{| pl_size := 1; pl_num := 9 |}; {| pl_size := 4; pl_num := 18 |}]).
    - exact ES.
    - lia.
    - exact EP.
    - intros q [<-|[]]. cbn. lia.
    - right. reflexivity.
    - intros c [<-|[<-|[]]]; apply tab_length.
    - exact G.
    - reflexivity.
    - change (2 <= 2)%nat. lia.
    - intros i [<-|[<-|[]]]; lia.
    - change (2 <= 2)%nat. lia.
    - intros i [<-|[<-|[]]]; lia. }
  destruct M1 as (c & c' & Ec & WR & HA).
  assert (L2 : length ir = 2%nat) by reflexivity.
  assert (Bir : @block_of A 2 5000 ir).
  { split; [reflexivity|]. intros d [<-|[<-|[]]]; (etransitivity; [apply map_length|apply tab_length]). }
  destruct (floats_good irR G) as [SB BB].
  assert (FB : finite_below 65536 ir).
  { change ir with (floats irR). intros d x Hd Hx. apply in_map_iff in Hd as (d0 & <- & Hd). apply in_map_iff in Hx as (x0 & <- & Hx0). 
    destruct (G _ _ Hd Hx0) as [G1 G2]. assert (N : number (of_real x0) x0).
    { assert (N2 : Forall2 number (map of_real [x0]) [x0]) by (apply of_reals; intros y [<-|[]]; split; [exact G1|unfold Ext.big; lra]). now inversion N2. }
    destruct N as (N1 & N2 & N3). split; [exact N1|]. split; [exact N2|]. rewrite N3. exact G2. }
  change (floats irR) with ir in Ec, SB. clearbody ir. clear G irR WR HA SB BB c'.
  assert (W : well_made TI 2 5000 ir 64 (stereo kCrossfade) c) by exact (stereo_made TI ir c L2 Bir Ec).
  destruct (one_load_meets TI ir 5000 false c L2 W) as (Eb & st & eng & ER & HQ & Et & T1 & T2 & Hl & Hs & E0 & Hu & Hnl & HS & HLd & HRj & HCl & EB & EPr).
  assert (HM : forall m, @block_of A (length ir) m ir -> m = 5000%nat) by (intros m Hm; exact (stereo_length ir 5000 m Bir Hm)).
  exists st, c, eng. split; [exact ER|]. split; [exact E0|]. split; [exact HS|]. intros bs bs' Hf Hf' Ht Hfin.
  pose proof (C73_from_LoadIR_to_sound OverflowExample.cosf OverflowExample.sinf OverflowExample.powf rounded_power TI (@RealFFTProof.fast_rfft F) 9 tau12 (transform_error tau12 7) 2
    T_sized T_bounded TI_same tau12_range (rounded_power_accurate 9 ltac:(lia)) (I_roots 9 ltac:(lia)) ltac:(lia)
    1 _ st _ ER HQ [Prepared 0 spec44; ResetDone 0 false] 3 0 0 ir (stereo kCrossfade) _ Et T1 ltac:(intros X; discriminate X) T2 [] _ spec44 eng bounds44 []
    Hl Hs E0 Hu Hnl Eb HS) as Q.
  destruct Q with (bs := bs) (bs' := bs') as (m & p & eng' & outs & outs' & Hm & Hp & Q1 & Q2 & Q3 & Q4 & Q5); clear Q; try assumption.
  - intros t' id' r p HB HP. split; [exact (HLd t' id' r p HB HP)|]. rewrite EPr in HP. destruct HP as [<-|[]].
    assert (r = (ir, stereo kCrossfade)) as -> by (eapply (one_traced (ir, stereo kCrossfade)); exact HB).
    split; [exact FB|]. split; [exact (eq_ind_r (fun n => (n <= 1024)%nat) (ltac:(lia) : (2 <= 1024)%nat) L2)|]. intros m e l0 Hm E1 E3. cbn [cs_internal stereo] in E1.
    apply HM in Hm. subst m.
    change (ps_max_block {| ps_rate_num := 44100; ps_rate_den := 1; ps_max_block := 64; ps_channels := 2 |}) with 64%nat in E1.
    assert (EE : (2 ^ e)%nat = (2 ^ 6)%nat) by (assert (X : Ok (Z.of_nat (2 ^ e)) = Ok (Z.of_nat (2 ^ 6))) by (etransitivity; [symmetry; exact E1|exact ES]); apply Nat2Z.inj; congruence).
    rewrite EE in E3 |- *. assert (X : Ok l0 = Ok [{| pl_size := 1; pl_num := 9 |}; {| pl_size := 4; pl_num := 18 |}]) by (etransitivity; [symmetry; exact E3|exact EP]).
    assert (X2 : l0 = [{| pl_size := 1; pl_num := 9 |}; {| pl_size := 4; pl_num := 18 |}]) by congruence. subst l0. intros q [<-|[]]. cbn. lia.
  - intros p HP. rewrite EPr in HP. destruct HP as [<-|[]]. cbn. lia.
  - intros m p Hm HP. rewrite EPr in HP. destruct HP as [<-|[]].
    apply HM in Hm. subst m.
    exact (precise64 kCrossfade).
  - rewrite EPr in Hp. destruct Hp as [<-|[]].
    apply HM in Hm. subst m.
    exists eng', outs, outs'. split; [exact Q1|]. split; [exact Q2|]. split; [exact Q3|]. split; [exact Q4|].
    intros X HP o t Ho Htt.
    exact (eq_ind (length ir) (fun n => Rabs (nth t (@channel Rarith o (map values outs')) 0 -
              nth (total bs + t) (@mixed Rarith n (fun c => nth c (values ir) []) [0; 1]%nat [1; 0]%nat (map values (bs ++ bs')) o) 0)
        <= convolver_error (transform_error tau12 7) tau12 5000 64 (values ir) (stereo kCrossfade) X o) (Q5 X HP o t Ho Htt) 2%nat L2).
Qed.
Print Assumptions C73_from_LoadIR_example.
