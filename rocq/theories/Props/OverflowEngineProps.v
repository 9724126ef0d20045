(** * C73: the engine in IEEE arithmetic: no infinity and no NaN *)
From Coq Require Import Reals Lra Lia ZArith Floats.SpecFloat.
From Flocq Require Import Core BinarySingleNaN.
From Verif.Model Require Import Base Arith ArithReal ArithSingle ArithIEEE Juce Float32 SmoothedValue Partitioning PartitionSchemes Convolver ConvolutionEngine.
From Verif.Spec Require Import Transform Buffers Signal Routing Layout Precision PrecisionScheme Memory Engine Overflow.
From Verif.Proofs Require Import Lists Blocks Streams Param SingleProof SingleReal RealFFTProof SingleFFT Ext ExtBounds OverflowProof OverflowExample
     IEEESingle IEEESmooth EngineHet.
From Verif.Spec Require Import PrecisionEngine Together.
From Verif.Proofs Require Import EngineProof EngineRun.
From Verif.Props Require Import PartitionProps ConvolverProps WholeProps MemoryProps EngineMemoryProps TogetherProps PrecisionEngineProps OverflowProps.
Open Scope R_scope.

Section Same.
  Context {cosf sinf : nat -> spec_float} {powf : spec_float * spec_float -> nat -> spec_float * spec_float} {pow : R * R -> nat -> R * R}.
  Notation I := (IEEE cosf sinf powf).
  Notation F := (SingleWith pow).
  Variables (Ri : rfft I) (Rs : rfft F) (kt w : nat).
  (** Two convolvers, one computing with IEEE numbers and one with rounded real numbers, constructed from the same response (at
      most 1024 channels, all samples finite and at most 65536 in size); the transforms of its parts have at most [2^kt] points. *)
  Definition made_alike (c : convolver I) (c' : convolver F) : Prop :=
    exists m ir ir' maximum_block_size spec,
      well_made Rs w m ir' maximum_block_size spec c' /\ conv_make Ri ir maximum_block_size spec = Ok c /\
      same_block ir ir' /\ block_below 65536 ir' /\ (length ir' <= 1024)%nat /\
      forall e l, conv_block_size (Z.of_nat maximum_block_size) (cs_internal spec) = Ok (Z.of_nat (2 ^ e)) ->
        GetPartitionScheme kGarciaResults (Z.of_nat (2 ^ e)) (Z.of_nat m) = Ok l ->
        forall q, In q (tl l) -> (2 * (Z.to_nat (pl_size q) * 2 ^ e) <= 2 ^ kt)%nat.
  (** the same actions of the other threads, with convolvers made alike *)
  Inductive same_action : action (convolver_if Ri) -> action (convolver_if Rs) -> Prop :=
  | SameDeliver i c c' : made_alike c c' ->
      same_action (Deliver (convolver_if Ri) {| h_id := i; h_cv := c : cv (convolver_if Ri) |})
                  (Deliver (convolver_if Rs) {| h_id := i; h_cv := c' : cv (convolver_if Rs) |})
  | SameDispose : same_action (Dispose _) (Dispose _)
  | SameRelease : same_action (Release _) (Release _).
  (** the same calls: sample rates up to 1 MHz, blocks of finite samples of at most 65536 in size *)
  Inductive same_op : op (convolver_if Ri) -> op (convolver_if Rs) -> Prop :=
  | SamePrepare s : (ps_rate_num s <= 1000000 * ps_rate_den s)%Z -> same_op (Prepare _ s) (Prepare _ s)
  | SameProcess b b' : same_block b b' -> block_below 65536 b' -> same_op (Process (convolver_if Ri) b) (Process (convolver_if Rs) b')
  | SameReset : same_op (Reset _) (Reset _)
  | SameClear : same_op (Clear _) (Clear _)
  | SameOthers l l' : Forall2 same_action l l' -> same_op (Others _ l) (Others _ l').
End Same.

Lemma feed_snoc {S A} (f : S -> audio A -> res (S * audio A)) b : forall cur s c o2 s2 o3,
  feed f s cur = Ok (c, o2) -> feed f s (cur ++ [b]) = Ok (s2, o3) -> exists b', f c b = Ok (s2, b') /\ o3 = o2 ++ [b'].
Proof.
  induction cur as [|x cur IH]; intros s c o2 s2 o3 E2 E3; cbn [feed app] in *.
  - injection E2 as <- <-. destruct (f s b) as [[s3 o4]| |]; cbn [bind] in E3; try discriminate.
    injection E3 as <- <-. exists o4. split; auto.
  - destruct (f s x) as [[s3 o4]| |]; cbn [bind] in *; try discriminate.
    destruct (feed f s3 cur) as [[s4 o5]| |] eqn:F1; cbn [bind] in *; try discriminate.
    destruct (feed f s3 (cur ++ [b])) as [[s5 o6]| |] eqn:F2; cbn [bind] in *; try discriminate.
    injection E2 as <- <-. injection E3 as <- <-. destruct (IH _ _ _ _ _ F1 F2) as (b' & G1 & ->). exists b'. split; auto.
Qed.
Lemma feed_sessions_last {S A} (f : S -> audio A -> res (S * audio A)) rst s hist cur s1 o1 s' outs :
  feed_sessions f rst s hist = Ok (s1, o1) -> feed_sessions f rst s (hist ++ [cur]) = Ok (s', outs) ->
  exists s2 o2, feed f s1 cur = Ok (s2, o2) /\ outs = o1 ++ [o2].
Proof.
  intros E1 E. rewrite feed_sessions_app, E1 in E. cbn [bind feed_sessions] in E.
  destruct (feed f s1 cur) as [[s2 o3]| |]; cbn [bind] in E; try discriminate. injection E as _ <-. eauto.
Qed.

Section Main.
  Context {cosf sinf : nat -> spec_float} {powf : spec_float * spec_float -> nat -> spec_float * spec_float} {pow : R * R -> nat -> R * R}.
  Notation I := (IEEE cosf sinf powf).
  Notation F := (SingleWith pow).
  Variables (Ri : rfft I) (Rs : rfft F) (kt : nat) (tau : R) (w : nat).
  Hypothesis HRs : rfft_sized Rs.
  Hypothesis HRb : rfft_bounded (@rfft_fwd F Rs) (@rfft_inv F Rs).
  Hypothesis HRi : @same_transform I number (@rfft_fwd I Ri) (@rfft_inv I Ri) (@rfft_fwd F Rs) (@rfft_inv F Rs).
  Hypothesis (Htau : 0 <= tau <= / 4) (Hpow : pow_accurate pow (@cis F) (@cis_neg F) kt tau).
  Hypothesis Hroots : @same_roots I number kt pow.
  Hypothesis Hw : (0 < w)%nat.
  Notation alike := (made_alike Ri Rs kt w).
  Notation bounded blocks := (@blocks_of F w blocks /\ forall b, In b blocks -> block_below 65536 b).

  Lemma alike_runs c c' : alike c c' -> forall sessions sessions', same_sessions sessions sessions' ->
      (forall blocks, In blocks sessions' -> bounded blocks) ->
      exists s outs s' outs', feed_sessions (conv_process Ri) conv_reset c sessions = Ok (s, outs) /\
        feed_sessions (conv_process Rs) conv_reset c' sessions' = Ok (s', outs') /\ same_sessions outs outs' /\
        Forall2 (fun ins os : list (audio F) => length os = length ins /\
          (forall i, (i < length ins)%nat -> exists k, @block_of F w k (nth i ins []) /\ @block_of F w k (nth i os [])) /\
          forall b, In b os -> block_below (21 * 2 ^ 121) b) sessions' outs'.
  Proof.
    intros (m & ir & ir' & M & spec & (_ & Hn & Hsh & Hm & H24 & Hreq & Hi & Hri & Ho & Hro & Ec') & Ec & Hir & Hb & Hn' & Hkt).
    destruct (C18_block_size (Z.of_nat M) (cs_internal spec) Hreq) as (b & e' & Eb & Ee & He & Hsup & _).
    set (e := Z.to_nat e'). assert (Eb' : b = Z.of_nat (2 ^ e)) by (unfold e; rewrite Nat2Z.inj_pow, Z2Nat.id by lia; exact Ee).
    rewrite Eb' in Eb, Hsup. clearbody e. clear b e' Ee He Eb'.
    destruct Hsup as [results Hres]. destruct (PartitionProof.scheme_good (Z.of_nat (2 ^ e)) (Z.of_nat m) results Hres) as (l & El & _); [lia|].
    assert (X : Xmax = 65536) by (unfold Xmax; lra).
    destruct (OverflowProof.two_runs cosf sinf powf pow Ri Rs HRs HRb HRi kt tau Htau Hpow Hroots w m ir ir' M spec e l Eb Hw (Logic.conj Hn Hn') Hsh Hm H24 El (Hkt e l Eb El) Hi Hri Ho Hro Hir)
      as (c1 & c1' & E1 & E2 & H).
    { rewrite X. exact Hb. }
    assert (c1 = c) by congruence. assert (c1' = c') by congruence. subst c1 c1'. rewrite X in H.
    intros ss ss' Hss Hses. destruct (H ss ss' Hss Hses) as (s & outs & s' & outs' & F1 & F2 & F3 & F4).
    exists s, outs, s', outs'. split; [exact F1|]. split; [exact F2|]. split; [exact F3|].
    clear - F4 Hn'. induction F4 as [|x y xs ys (H1 & H2 & H3) _ IH]; constructor; [|exact IH].
    split; [exact H1|]. split; [exact H2|]. intros b Hb c z Hc Hz. eapply Rle_trans; [eapply H3; eassumption|].
    assert (B : INR (length ir') <= 1024) by (apply Rle_trans with (INR 1024); [now apply le_INR|rewrite INR_IZR_INZ; apply IZR_le; lia]).
    apply Rle_trans with (1024 * (21 * 2 ^ 111)); [|lra]. apply Rmult_le_compat_r; [lra|exact B].
  Qed.
  Lemma alike_meta c c' : alike c c' -> c_spec c = c_spec c' /\ c_num_samples c = c_num_samples c'.
  Proof.
    intros (m & ir & ir' & M & spec & HW & Ec & Hir & _). destruct (well_made_meta _ _ _ _ _ _ _ HW) as [E1 E2].
    destruct HW as (H1 & Hn & Hsh & Hm & H24 & Hreq & Hi & Hri & Ho & Hro & Ec').
    assert (L : length ir = length ir') by (apply (F2_length Hir)).
    assert (W : well_made Ri w m ir M spec c).
    { red. cbv zeta. rewrite L. repeat (split; [assumption|]). split; [|repeat (split; [assumption|]); assumption].
      split; [exact L|]. intros ch Hc. destruct Hsh as [_ Hsh]. clear - Hir Hc Hsh.
      induction Hir as [|x y xs ys Hxy _ IH]; [destruct Hc|]. destruct Hc as [<-|Hc].
      - etransitivity; [exact (F2_length Hxy)|]. apply Hsh. now left.
      - apply IH; auto. intros z Hz. apply Hsh. now right. }
    destruct (well_made_meta _ _ _ _ _ _ _ W) as [E3 E4]. split; congruence.
  Qed.

  (** two convolvers made alike and used alike *)
  Definition both (c : convolver I) (c' : convolver F) : Prop :=
    exists c0 c0' hist hist' cur cur' s1 o1 s1' o1' o2 o2',
      alike c0 c0' /\ same_sessions hist hist' /\ (forall blocks, In blocks hist' -> bounded blocks) /\
      Forall2 same_block cur cur' /\ bounded cur' /\
      feed_sessions (conv_process Ri) conv_reset c0 hist = Ok (s1, o1) /\ feed_sessions (conv_process Rs) conv_reset c0' hist' = Ok (s1', o1') /\
      feed (conv_process Ri) s1 cur = Ok (c, o2) /\ feed (conv_process Rs) s1' cur' = Ok (c', o2') /\
      looks c0 c /\ looks c0' c'.
  Lemma both_new c c' : alike c c' -> both c c'.
  Proof.
    intros H. exists c, c', [], [], [], [], c, [], c', [], [], []. split; [exact H|]. split; [constructor|]. split; [intros ? []|]. split; [constructor|].
    split; [split; intros ? []|]. repeat (split; [reflexivity|]). split; split; reflexivity.
  Qed.
  Lemma both_reset c c' : both c c' -> both (conv_reset c) (conv_reset c').
  Proof.
    intros (c0 & c0' & hist & hist' & cur & cur' & s1 & o1 & s1' & o1' & o2 & o2' & HA & Hh & Hb & Hc & Hcb & E1 & E1' & E2 & E2' & L & L').
    exists c0, c0', (hist ++ [cur]), (hist' ++ [cur']), [], [], (conv_reset c), (o1 ++ [o2]), (conv_reset c'), (o1' ++ [o2']), [], [].
    split; [exact HA|]. split; [apply Forall2_app; [exact Hh|constructor; [exact Hc|constructor]]|].
    split; [intros x Hx; apply in_app_iff in Hx as [Hx|[<-|[]]]; auto|]. split; [constructor|]. split; [split; intros ? []|].
    split; [rewrite feed_sessions_app, E1; cbn [bind feed_sessions]; rewrite E2; reflexivity|].
    split; [rewrite feed_sessions_app, E1'; cbn [bind feed_sessions]; rewrite E2'; reflexivity|].
    split; [reflexivity|]. split; [reflexivity|]. destruct L, L'. split; split; cbn; assumption.
  Qed.
  Lemma both_process m c c' b b' : both c c' -> @block_of F w m b' -> same_block b b' -> block_below 65536 b' ->
    exists c1 c1' o o', conv_process Ri c b = Ok (c1, o) /\ conv_process Rs c' b' = Ok (c1', o') /\ both c1 c1' /\
      @block_of F w m o' /\ same_block o o' /\ block_below (21 * 2 ^ 121) o'.
  Proof.
    intros (c0 & c0' & hist & hist' & cur & cur' & s1 & o1 & s1' & o1' & o2 & o2' & HA & Hh & Hb & Hc & Hcb & E1 & E1' & E2 & E2' & L & L') Hbm Hbb Hbl.
    assert (B : bounded (cur' ++ [b'])).
    { destruct Hcb as [Hc1 Hc2]. split; intros x Hx; apply in_app_iff in Hx as [Hx|[<-|[]]]; auto. now exists m. }
    assert (SB : Forall2 same_block (cur ++ [b]) (cur' ++ [b'])) by (apply Forall2_app; [exact Hc|constructor; [exact Hbb|constructor]]).
    destruct (alike_runs c0 c0' HA (hist ++ [cur ++ [b]]) (hist' ++ [cur' ++ [b']])) as (s & outs & s' & outs' & F1 & F2 & F3 & F4).
    { apply Forall2_app; [exact Hh|constructor; [exact SB|constructor]]. }
    { intros x Hx; apply in_app_iff in Hx as [Hx|[<-|[]]]; auto. }
    destruct (feed_sessions_last _ _ _ _ _ _ _ _ _ E1 F1) as (s2 & o3 & G1 & ->).
    destruct (feed_sessions_last _ _ _ _ _ _ _ _ _ E1' F2) as (s2' & o3' & G2 & ->).
    destruct (feed_snoc _ _ _ _ _ _ _ _ E2 G1) as (o & P1 & ->). destruct (feed_snoc _ _ _ _ _ _ _ _ E2' G2) as (o' & P2 & ->).
    exists s2, s2', o, o'. split; [exact P1|]. split; [exact P2|]. split.
    - exists c0, c0', hist, hist', (cur ++ [b]), (cur' ++ [b']), s1, o1, s1', o1', (o2 ++ [o]), (o2' ++ [o']).
      apply process_looks in P1, P2. destruct L, L', P1, P2.
      split; [exact HA|]. split; [exact Hh|]. split; [exact Hb|]. split; [exact SB|]. split; [exact B|]. repeat (split; [assumption|]). split; split; congruence.
    - assert (SO : same_block o o').
      { apply Forall2_app_inv_r in F3 as (p & q & HFp & HFq & Epq). inversion HFq as [|y ? q1 ? Hy HFq1]; subst. inversion HFq1; subst.
        apply app_inj_tail in Epq as [_ <-]. apply Forall2_app_inv_r in Hy as (p' & q' & _ & HFq' & Epq').
        inversion HFq' as [|z ? q2 ? Hz HFq2]; subst. inversion HFq2; subst. apply app_inj_tail in Epq' as [_ <-]. exact Hz. }
      apply Forall2_app_inv_l in F4 as (p & q & HFp & HFq & Epq). inversion HFq as [|? y ? q1 Hy HFq1]; subst. inversion HFq1; subst.
      apply app_inj_tail in Epq as [_ <-]. destruct Hy as (HL & HS & HB).
      destruct (HS (length cur')) as (k & K1 & K2); [rewrite app_length; cbn; lia|].
      rewrite !app_length in HL. cbn in HL. assert (HL2 : length o2' = length cur') by lia.
      rewrite nth_middle in K1. rewrite <- HL2, nth_middle in K2.
      assert (k = m) as ->.
      { destruct Hbm as [Hb1 Hb2], K1 as [K3 K4]. destruct b' as [|x b']; [cbn in *; lia|].
        rewrite <- (K4 x), <- (Hb2 x); auto; now left. }
      split; [exact K2|]. split; [exact SO|]. apply HB. apply in_app_iff. right. now left.
  Qed.
End Main.

Section Engine.
  Context {cosf sinf : nat -> spec_float} {powf : spec_float * spec_float -> nat -> spec_float * spec_float} {pow : R * R -> nat -> R * R}.
  Notation I := (IEEE cosf sinf powf).
  Notation F := (SingleWith pow).
  Variables (Ri : rfft I) (Rs : rfft F) (kt : nat) (tau : R) (w : nat).
  Hypothesis HRs : rfft_sized Rs.
  Hypothesis HRb : rfft_bounded (@rfft_fwd F Rs) (@rfft_inv F Rs).
  Hypothesis HRi : @same_transform I number (@rfft_fwd I Ri) (@rfft_inv I Ri) (@rfft_fwd F Rs) (@rfft_inv F Rs).
  Hypothesis (Htau : 0 <= tau <= / 4) (Hpow : pow_accurate pow (@cis F) (@cis_neg F) kt tau).
  Hypothesis Hroots : @same_roots I number kt pow.
  Hypothesis Hw : (0 < w)%nat.
  Notation Ji := (convolver_if Ri).
  Notation Js := (convolver_if Rs).
  Notation bothc := (both Ri Rs kt w : cv Ji -> cv Js -> Prop).
  Notation QIN := (@Qin cosf sinf powf pow).
  Notation QOUT := (@Qout cosf sinf powf pow).
  Notation QMIX := (@Qmix cosf sinf powf pow).
  Notation LEV := (@Glev cosf sinf powf pow).

  Lemma F2_and {X Y} (P Q : X -> Y -> Prop) l l' : Forall2 P l l' -> Forall2 Q l l' -> Forall2 (fun x y => P x y /\ Q x y) l l'.
  Proof. induction 1; intros HQ; inversion HQ; subst; constructor; auto. Qed.
  Lemma below_split (X : R) b b' : Forall2 (Forall2 (fun (x : spec_float) (r : R) => number x r /\ Rabs r <= X)) b b' <-> same_block b b' /\ block_below X b'.
  Proof.
    split.
    - intros H. split.
      + red. induction H as [|c c' b b' Hc _ IH]; constructor; auto. clear IH. induction Hc as [|x y c c' [Hx _] _ IH]; constructor; auto.
      + intros c x Hc Hx. induction H as [|d d' b b' Hd _ IH]; [destruct Hc|]. destruct Hc as [<-|Hc]; [|auto]. clear IH.
        induction Hd as [|y z d d' [_ Hy] _ IH]; [destruct Hx|]. destruct Hx as [<-|Hx]; auto.
    - intros [H1 H2]. red in H1. induction H1 as [|c c' b b' Hc _ IH]; constructor.
      + assert (H3 : forall x, In x c' -> Rabs x <= X) by (intros x Hx; apply (H2 c' x); [now left|exact Hx]). clear - Hc H3.
        induction Hc as [|x y c c' Hx _ IH]; constructor; [split; [exact Hx|apply H3; now left]|]. apply IH. intros z Hz. apply H3. now right.
      + apply IH. intros c0 x Hc0. apply (H2 c0 x). now right.
  Qed.
  Lemma same_shape m b b' : same_block b b' -> @block_of F w m b' -> @block_of I w m b.
  Proof.
    intros H [H1 H2]. split; [rewrite <- H1; exact (F2_length H)|]. clear H1. red in H. induction H as [|c c' b b' Hc _ IH]; intros d Hd; [destruct Hd|].
    destruct Hd as [<-|Hd]; [etransitivity; [exact (F2_length Hc)|apply H2; now left]|]. apply IH; auto. intros x Hx. apply H2. now right.
  Qed.
  Lemma engines_ok : het_ok Ji Js w QIN QOUT QMIX LEV bothc (@smrel cosf sinf powf pow) short fade_len.
  Proof.
    constructor.
    - apply both_reset.
    - intros c c' (c0 & c0' & hist & hist' & cur & cur' & s1 & o1 & s1' & o1' & o2 & o2' & HA & _ & _ & _ & _ & _ & _ & _ & _ & [_ L] & [_ L']).
      destruct (alike_meta _ _ _ _ _ _ HA) as [_ E]. cbn [cv_samples convolver_if]. congruence.
    - intros c c' (c0 & c0' & hist & hist' & cur & cur' & s1 & o1 & s1' & o1' & o2 & o2' & HA & _ & _ & _ & _ & _ & _ & _ & _ & [L _] & [L' _]).
      destruct (alike_meta _ _ _ _ _ _ HA) as [E _]. cbn [cv_fade convolver_if]. congruence.
    - intros m c c' b b' Hc (B1 & B2 & B3). apply below_split in B3 as [B3 B4].
      destruct (both_process Ri Rs kt tau w HRs HRb HRi Htau Hpow Hroots Hw m c c' b b' Hc B2 B3 B4) as (c1 & c1' & o & o' & E1 & E2 & Hc1 & O1 & O2 & O3).
      exists c1, c1', o, o'. split; [exact E1|]. split; [exact E2|]. split; [exact Hc1|]. split; [eapply same_shape; eauto|]. split; [exact O1|]. apply below_split. auto.
    - apply Q_through.
    - apply Q_out.
    - apply Q_mix.
    - apply Q_scale.
    - split; [apply number_0|]. cbn. rewrite Rabs_R0. lra.
    - apply sm_rel_new.
    - apply sm_rel_set.
    - intros. now apply sm_rel_begin.
    - apply sm_rel_next.
    - intros v v' H. now apply (sr_count _ _ _ _ _ _ H).
    - intros b ir f st n Hb E. eapply short_fade; eauto.
  Qed.

  Lemma same_acts l l' : Forall2 (same_action Ri Rs kt w) l l' -> Forall2 (arel Ji Js bothc) l l'.
  Proof. induction 1 as [|a a' l l' Ha _ IH]; constructor; auto. destruct Ha; constructor. constructor. now apply both_new. Qed.
  Lemma same_ops l l' : Forall2 (same_op Ri Rs kt w) l l' -> forall P, legal Js w (fun _ => True) P l' -> oprels Ji Js w QIN bothc short P l l'.
  Proof.
    induction 1 as [|o o' l l' Ho _ IH]; intros P HL; [constructor|]. destruct Ho as [s Hs|b b' Hb Hbl| | |a a' Ha]; cbn [legal] in HL.
    - destruct HL as [HS HL]. econstructor; [|apply IH; exact HL]. constructor; [exact HS|]. destruct HS as (_ & _ & R1 & R2 & _). intros x Hx. eapply short_spec; eauto.
    - destruct HL as [(M & m & -> & Hm & Bm) HL]. econstructor; [|apply IH; exact HL]. econstructor; [exact Hm|]. split; [eapply same_shape; eauto|].
      split; [exact Bm|]. apply below_split. auto.
    - destruct HL as [HP HL]. destruct P as [M|]; [|congruence]. econstructor; [|apply IH; exact HL]. constructor.
    - destruct HL as [HP HL]. destruct P as [M|]; [|congruence]. econstructor; [|apply IH; exact HL]. constructor.
    - destruct HL as [HP HL]. econstructor; [|apply IH; exact HL]. constructor. now apply same_acts.
  Qed.
  Lemma same_delivers l l' : Forall2 (same_action Ri Rs kt w) l l' -> delivers_ok Js (@used F Rs w) l'.
  Proof.
    intros H h Hh. induction H as [|a a' l l' Ha _ IH]; [destruct Hh|]. destruct Hh as [E|Hh]; [|auto]. subst a'. inversion Ha as [i c c' HA E1 E2| |]; subst.
    destruct HA as (m & ir & ir' & M & spec & HW & _). cbn [h_cv]. eapply used_new; eauto.
  Qed.
  Lemma same_legal l l' : Forall2 (same_op Ri Rs kt w) l l' -> forall P, legal Js w (fun _ => True) P l' -> legal Js w (@used F Rs w) P l'.
  Proof.
    induction 1 as [|o o' l l' Ho _ IH]; intros P HL; [exact HL|]. destruct Ho as [s Hs|b b' Hb Hbl| | |a a' Ha]; cbn [legal] in *; destruct HL as [H1 HL]; split; auto.
    eapply same_delivers; eauto.
  Qed.
End Engine.

(** C73.  Two engines, one computing with IEEE 754 binary32 numbers and one with the rounded real numbers of C56-C65, are given the
    same calls: sample rates up to 1 MHz, blocks of finite samples of at most 65536 in size, convolvers made from the same responses
    (as in C72), and the same actions of the other threads.  Then no call fails, every number the first one puts out is finite and is
    the number the second one puts out, and the two logs are the same. *)
Theorem C73_engine_no_overflow : forall cosf sinf powf pow (Ri : rfft (IEEE cosf sinf powf)) (Rs : rfft (SingleWith pow)) kt tau w,
  rfft_sized Rs -> rfft_bounded (@rfft_fwd _ Rs) (@rfft_inv _ Rs) ->
  @same_transform (IEEE cosf sinf powf) number (rfft_fwd Ri) (rfft_inv Ri) (@rfft_fwd _ Rs) (@rfft_inv _ Rs) ->
  0 <= tau <= / 4 -> pow_accurate pow (@cis (SingleWith pow)) (@cis_neg (SingleWith pow)) kt tau ->
  @same_roots (IEEE cosf sinf powf) number kt pow -> (0 < w)%nat ->
  let Ji := convolver_if Ri in let Js := convolver_if Rs in
  forall env env' calls calls', Forall2 (Forall2 (same_action Ri Rs kt w)) env env' -> Forall2 (same_op Ri Rs kt w) calls calls' ->
  legal Js w (fun _ => True) None calls' ->
  exists e outs e' outs', eng_run Ji (eng_new Ji env) calls = Ok (e, outs) /\ eng_run Js (eng_new Js env') calls' = Ok (e', outs') /\
    Forall2 same_block outs outs' /\ e_log Ji e = e_log Js e'.
Proof.
  intros cosf sinf powf pow Ri Rs kt tau w HRs HRb HRi Htau Hpow Hroots Hw Ji Js env env' l l' HV HL Hleg.
  pose proof (engines_ok Ri Rs kt tau w HRs HRb HRi Htau Hpow Hroots Hw) as HO.
  assert (HV2 : Forall2 (Forall2 (arel Ji Js (both Ri Rs kt w : cv Ji -> cv Js -> Prop))) env env').
  { clear - HV. induction HV; constructor; auto. now apply same_acts. }
  pose proof (run_rel Ji Js w _ _ _ _ _ _ _ _ Hw HO None l l' (same_ops Ri Rs kt w l l' HL None Hleg) _ _ (new_rel Ji Js w _ _ _ _ _ _ _ _ HO env env' HV2)) as HR.
  destruct (C62_engine_never_fails _ Rs HRs w Hw env' l') as (e' & outs' & E' & _).
  { clear - HV. induction HV; constructor; auto. eapply same_delivers; eauto. }
  { eapply same_legal; eauto. }
  fold Js in E'. rewrite E' in HR. inversion HR as [[e outs] ? [(P & HE) HB] EQ| |]; subst. cbn [fst snd] in *.
  exists e, outs, e', outs'. split; [auto|]. split; [exact E'|]. split; [|apply (r_log _ _ _ _ _ _ _ _ _ HE)].
  clear - HB. induction HB as [|b b' outs outs' Hb _ IH]; constructor; auto. apply (below_split _ b b') in Hb. apply Hb.
Qed.
Print Assumptions C73_engine_no_overflow.

Lemma run_join {A} (J : conv_if A) l1 l2 e e1 o1 e2 o2 : eng_run J e l1 = Ok (e1, o1) -> eng_run J e1 l2 = Ok (e2, o2) ->
  eng_run J e (l1 ++ l2) = Ok (e2, o1 ++ o2).
Proof. intros E1 E2. rewrite run_app, E1. cbn [bind]. now rewrite E2. Qed.
(** With C64: what the IEEE engine puts out.  [l], [bs] and [bs'] are the calls in floats, [l'], [rs] and [rs'] the same calls in real
    numbers; once the last delivered response is fully faded in and its length has passed, every number put out is finite and within
    the error of C64 of the exact convolution of everything played with that response. *)
Theorem C73_last_response_is_heard : forall cosf sinf powf pow (Ri : rfft (IEEE cosf sinf powf)) (Rs : rfft (SingleWith pow)) kt tau (delta : R) w,
  rfft_sized Rs -> rfft_bounded (@rfft_fwd _ Rs) (@rfft_inv _ Rs) ->
  @same_transform (IEEE cosf sinf powf) number (rfft_fwd Ri) (rfft_inv Ri) (@rfft_fwd _ Rs) (@rfft_inv _ Rs) ->
  0 <= tau <= / 4 -> pow_accurate pow (@cis (SingleWith pow)) (@cis_neg (SingleWith pow)) kt tau ->
  @same_roots (IEEE cosf sinf powf) number kt pow -> (0 < w)%nat ->
  let Ji := convolver_if Ri in let Js := convolver_if Rs in
  forall env env' l l' (bs : list (audio (IEEE cosf sinf powf))) (rs : list (audio (SingleWith pow))) (bs' : list (audio (IEEE cosf sinf powf)))
    (rs' : list (audio (SingleWith pow))), Forall2 (Forall2 (same_action Ri Rs kt w)) env env' -> Forall2 (same_op Ri Rs kt w) l l' ->
  @Forall2 (audio (IEEE cosf sinf powf)) (audio (SingleWith pow)) same_block (bs ++ bs') (rs ++ rs') -> length bs = length rs -> (forall b, In b (rs ++ rs') -> block_below 65536 b) ->
  legal Js w (fun _ => True) None l' ->
  forall s er b outs0, last_spec None l' = Some s -> eng_run Js (eng_new Js env') l' = Ok (er, outs0) ->
  unhurried (eng_new Js env') l' -> no_loads er -> engine_bounds s = Ok b ->
  forall i, latest None (e_log Js er) = Some i ->
  fits w (ps_max_block s) rs -> (settling_time b (ps_max_block s) <= total rs)%nat -> fits w (ps_max_block s) rs' ->
  exists h0, delivers env' l' h0 /\ h_id Js h0 = i /\
  forall m (ir : audio Rarith) M sp, @well_made (SingleWith pow) Rs w m ir M sp (h_cv Js h0) -> precise Rs delta tau m M sp ->
  exists e before during outs (outs' : list (audio (SingleWith pow))), eng_run Ji (eng_new Ji env) (l ++ map (Process Ji) (bs ++ bs')) = Ok (e, before ++ during ++ outs) /\
    length during = length bs /\ length outs = length bs' /\ @Forall2 (audio (IEEE cosf sinf powf)) (audio (SingleWith pow)) same_block outs outs' /\
    forall X, peak_below X (blocks_in Js l' ++ rs ++ rs') ->
    forall o t, (o < w)%nat -> (m <= t < total rs')%nat ->
      Rabs (nth t (channel o outs') 0 -
            nth (total (blocks_in Js l' ++ rs) + t) (@mixed Rarith (length ir) (fun c => nth c ir []) (cs_in sp) (cs_out sp) (blocks_in Js l' ++ rs ++ rs') o) 0)
      <= convolver_error delta tau m M ir sp X o.
Proof.
  intros cosf sinf powf pow Ri Rs kt tau delta w HRs HRb HRi Htau Hpow Hroots Hw Ji Js env env' l l' bs rs bs' rs' HV HL HB HBl HX Hleg
         s er b outs0 Hs E0 Hu Hn Eb i Hi Hf Ht Hf'.
  assert (HD : forall h, delivers env' l' h -> exists m ir M sp, @well_made (SingleWith pow) Rs w m ir M sp (h_cv Js h)).
  { assert (HA : forall a a' h, Forall2 (same_action Ri Rs kt w) a a' -> In (Deliver Js h) a' -> exists m ir M sp, @well_made (SingleWith pow) Rs w m ir M sp (h_cv Js h)).
    { intros a a' h H Hh. induction H as [|x x' a a' Hx _ IH]; [destruct Hh|]. destruct Hh as [E|Hh]; [|auto]. subst x'.
      inversion Hx as [j c c' HA E1 E2| |]; subst. destruct HA as (m & ir & ir' & M & spec & HW & _). cbn [h_cv]. eauto. }
    intros h [(a & Ha & Hh)|(a & Ha & Hh)].
    - clear - HV HA Ha Hh. induction HV as [|x x' e e' Hx _ IH]; [destruct Ha|]. destruct Ha as [<-|Ha]; eauto.
    - clear - HL HA Ha Hh. induction HL as [|x x' e e' Hx _ IH]; [destruct Ha|]. destruct Ha as [E|Ha]; [|eauto]. rewrite E in Hx. inversion Hx; subst. eauto. }
  destruct (C64_last_response_is_heard pow Rs HRs delta tau w Hw env' l' s er b outs0 Hleg Hs E0 HD Hu Hn Eb i Hi rs Hf Ht) as (h0 & D0 & Hid & HH).
  exists h0. split; [exact D0|]. split; [exact Hid|]. intros m ir M sp W HP. destruct (HH m ir M sp W HP rs' Hf') as (e1 & outs1 & outs2 & E1 & L1 & L2 & HE).
  assert (HL2 : Forall2 (same_op Ri Rs kt w) (l ++ map (Process Ji) (bs ++ bs')) (l' ++ map (Process Js) (rs ++ rs'))).
  { apply Forall2_app; [exact HL|]. clear - HB HX. revert HB HX. generalize (bs ++ bs') (rs ++ rs'). induction 1 as [|x x' u u' Hx _ IH]; intros HX; cbn [map]; constructor.
    - constructor; [exact Hx|]. apply HX. now left.
    - apply IH. intros y Hy. apply HX. now right. }
  assert (Hleg2 : legal Js w (fun _ => True) None (l' ++ map (Process Js) (rs ++ rs'))).
  { assert (Hf2 : forall x, In x (rs ++ rs') -> exists m, (m <= ps_max_block s)%nat /\ block_of w m x) by (intros x Hx; apply in_app_iff in Hx as [Hx|Hx]; auto).
    assert (HP1 : legal Js w (fun _ => True) (Some (ps_max_block s)) (map (Process Js) (rs ++ rs'))).
    { clear - Hf2. induction (rs ++ rs') as [|x u IH]; cbn [map legal]; [exact Logic.I|]. split.
      - destruct (Hf2 x (or_introl eq_refl)) as (k & K1 & K2). eauto.
      - apply IH. intros y Hy. apply Hf2. now right. }
    clear - Hleg Hs HP1. set (tl := map (Process Js) (rs ++ rs')) in *. clearbody tl.
    assert (X : forall sp P, match sp with Some s0 => P = Some (ps_max_block s0) | None => P = None end -> legal Js w (fun _ => True) P l' ->
       last_spec sp l' = Some s -> legal Js w (fun _ => True) P (l' ++ tl)).
    { clear Hleg Hs. induction l' as [|o l' IH]; intros sp P HP HL HS.
      - cbn [last_spec] in HS. subst sp. cbn in HP. subst P. exact HP1.
      - destruct o; cbn [legal last_spec app] in *; destruct HL as [H1 H2]; (split; [exact H1|]);
          [apply (IH (Some s0) (Some (ps_max_block s0)) eq_refl H2 HS)|apply (IH sp P HP H2 HS)..]. }
    apply (X None None); auto. }
  destruct (C73_engine_no_overflow cosf sinf powf pow Ri Rs kt tau w HRs HRb HRi Htau Hpow Hroots Hw env env' _ _ HV HL2 Hleg2) as (e & outs & e' & outs' & R1 & R2 & R3 & _).
  assert (EE : Ok (e', outs') = Ok (e1, outs0 ++ outs1 ++ outs2)).
  { etransitivity; [symmetry; exact R2|]. exact (run_join Js _ _ _ _ _ _ _ E0 E1). }
  injection EE as -> ->. apply Forall2_app_inv_r in R3 as (x & y & _ & Hy & ->). apply Forall2_app_inv_r in Hy as (d & z & Hd & Hz & ->).
  exists e, x, d, z, outs2. split; [exact R1|]. split; [rewrite HBl, <- L1; exact (F2_length Hd)|].
  split; [etransitivity; [exact (F2_length Hz)|]; etransitivity; [exact L2|]; pose proof (F2_length HB) as Q; rewrite !app_length in Q; lia|]. split; [exact Hz|exact HE].
Qed.
Print Assumptions C73_last_response_is_heard.

Section Library.
  Notation F := (SingleWith rounded_power).
  Notation I := (IEEE OverflowExample.cosf OverflowExample.sinf OverflowExample.powf).
  Notation Rs := (@RealFFTProof.fast_rfft F).
  Definition floats (b : list (list R)) : list (list spec_float) := map (map of_real) b.
  Lemma ints_hold i : (i < 5000)%nat -> holds (INR i) /\ Rabs (INR i) <= 65536.
  Proof.
    intros Hi. split.
    - red. apply single_id. rewrite INR_IZR_INZ. replace (IZR (Z.of_nat i)) with (IZR (Z.of_nat i) * bpow radix2 0) by (cbn; ring). apply format_dyadic; lia.
    - rewrite Rabs_pos_eq by apply pos_INR. rewrite INR_IZR_INZ. apply IZR_le. lia.
  Qed.
  Lemma opp_hold i : (i < 5000)%nat -> holds (- INR i) /\ Rabs (- INR i) <= 65536.
  Proof. intros Hi. destruct (ints_hold i Hi) as [H1 H2]. split; [now apply holds_opp|]. now rewrite Rabs_Ropp. Qed.
  Lemma floats_good (b : list (list R)) : (forall c x, In c b -> In x c -> holds x /\ Rabs x <= 65536) -> same_block (floats b) b /\ block_below 65536 b.
  Proof.
    intros Hb. split.
    - red. unfold floats. induction b as [|c x IH]; constructor; [|apply IH; intros c' y Hc; apply Hb; now right]. apply of_reals.
      intros y Hy. destruct (Hb c y (or_introl eq_refl) Hy) as [G1 G2]. split; [exact G1|]. unfold Ext.big. lra.
    - intros c y Hc Hy. now apply (Hb c y).
  Qed.
  Lemma floats_make M e l (ir : audio F) sp : conv_block_size (Z.of_nat M) None = Ok (Z.of_nat (2 ^ e)) -> (Z.of_nat M <= 2 ^ 30)%Z ->
     GetPartitionScheme kGarciaResults (Z.of_nat (2 ^ e)) (Z.of_nat 5000) = Ok l ->
     (forall q, In q (tl l) -> (2 * (Z.to_nat (pl_size q) * 2 ^ e) <= 2 ^ 9)%nat) ->
     (length ir = 1 \/ length ir = 2)%nat -> (forall c, In c ir -> length c = 5000%nat) ->
     (forall c x, In c ir -> In x c -> holds x /\ Rabs x <= 65536) -> cs_internal sp = None ->
     (length ir <= length (cs_in sp))%nat -> (forall i, In i (cs_in sp) -> (i < 2)%nat) ->
     (length ir <= length (cs_out sp))%nat -> (forall i, In i (cs_out sp) -> (i < 2)%nat) ->
     exists c c', conv_make TI (floats ir) M sp = Ok c /\ well_made Rs 2 5000 ir M sp c' /\ made_alike TI Rs 9 2 c c'.
  Proof.
    intros EB HM EL Hq L Sh G E0 I1 I2 O1 O2. destruct (floats_good ir G) as [G1 G2].
    assert (FI : forall X (P : X -> Prop) n l, (forall x, In x l -> P x) -> forall x, In x (firstn n l) -> P x).
    { intros X P n l0 H x Hx. apply H. rewrite <- (firstn_skipn n l0). apply in_app_iff. now left. }
    assert (L2 : (0 < length ir <= 1024)%nat) by (destruct L as [L|L]; rewrite L; lia).
    assert (L3 : (0 < length ir)%nat) by apply L2. assert (L4 : (length ir <= 1024)%nat) by apply L2. clear L. rewrite <- E0 in EB.
    destruct (C72_no_overflow OverflowExample.cosf OverflowExample.sinf OverflowExample.powf rounded_power TI Rs 9 tau12 2 5000 (floats ir) ir M sp e l)
      as (c & c' & E1 & E2 & _).
    - apply T_sized.
    - apply T_bounded.
    - apply TI_same.
    - apply tau12_range.
    - apply rounded_power_accurate. lia.
    - apply I_roots. lia.
    - exact EB.
    - lia.
    - exact L2.
    - split; [reflexivity|exact Sh].
    - lia.
    - lia.
    - exact EL.
    - exact Hq.
    - exact I1.
    - apply FI, I2.
    - exact O1.
    - apply FI, O2.
    - exact G1.
    - exact G2.
    - assert (W : well_made Rs 2 5000 ir M sp c').
      { red. cbv zeta. split; [lia|]. split; [exact L3|]. split; [split; [reflexivity|exact Sh]|]. split; [lia|]. split; [lia|]. split; [rewrite E0; exact HM|].
        split; [exact I1|]. split; [apply FI, I2|]. split; [exact O1|]. split; [apply FI, O2|exact E2]. }
      exists c, c'. split; [exact E1|]. split; [exact W|]. exists 5000%nat, (floats ir), ir, M, sp.
      split; [exact W|split; [exact E1|split; [exact G1|split; [exact G2|split; [exact L4|]]]]].
      intros e' l0 Ee El0. assert (EE : (2 ^ e')%nat = (2 ^ e)%nat) by (rewrite EB in Ee; injection Ee as Ee; lia).
      rewrite EE in *. assert (X : Ok l0 = Ok l) by (etransitivity; [symmetry; exact El0|exact EL]). assert (l0 = l) by congruence. subst l0. exact Hq.
  Qed.
  Lemma precise64 fade : @precise rounded_power Rs (transform_error tau12 7) tau12 5000 64 (stereo fade).
  Proof.
    split; [|split].
    - unfold transform_error. pose proof (growth 7 ltac:(lia)) as [G _]. change (tau12 + 12 * u24) with (SingleFFT.gfac tau12). lra.
    - apply tau12_range.
    - intros b l Eb El. assert (b = 64%Z) by (cbn in Eb; now injection Eb as <-). subst b. split.
      + change (S (Nat.log2 (Z.to_nat 64))) with 7%nat. apply T_accurate. lia.
      + exists 9%nat. split; [apply rounded_power_accurate; lia|].
        assert (X : GetPartitionScheme kGarciaResults 64 (Z.of_nat 5000) = Ok [{| pl_size := 1; pl_num := 9 |}; {| pl_size := 4; pl_num := 18 |}]) by (vm_compute; reflexivity).
        rewrite X in El. injection El as <-. intros q [<-|[]]. cbn. lia.
  Qed.
End Library.

(** With a concrete library (OverflowExample.v): a stereo engine for 44.1 kHz and blocks of at most 48 samples, two responses of 5000
    samples, a fade from the first to the second, a reset, a call of Clear. *)
Example C73_example :
  let F := SingleWith rounded_power in
  let I := IEEE OverflowExample.cosf OverflowExample.sinf OverflowExample.powf in
  let Rs := @RealFFTProof.fast_rfft F in
  let Ji := convolver_if TI in let Js := convolver_if Rs in
  let one : audio F := [tab 5000 (fun i => INR (i mod 7)); tab 5000 (fun i => - INR i)] in
  let two : audio F := [tab 5000 (fun i => - INR i)] in
  let sp1 := {| cs_in := [0; 1]%nat; cs_out := [1; 1]%nat; cs_fade := kCrossfade; cs_internal := None |} in
  let sp2 := {| cs_in := [1]%nat; cs_out := [0]%nat; cs_fade := kInOut; cs_internal := None |} in
  let s := {| ps_rate_num := 44100; ps_rate_den := 1; ps_max_block := 48; ps_channels := 2 |} in
  let b : audio F := [tab 40 INR; tab 40 (fun _ => 1)] in
  let calls (J : conv_if _) c1 c2 (x : audio _) := [Others J [Deliver J {| h_id := 1; h_cv := c1 |}]; Prepare J s; Process J x;
     Others J [Deliver J {| h_id := 2; h_cv := c2 |}]; Process J x; Process J x; Reset J; Process J x; Clear J; Process J x] in
  let calls' (J : conv_if F) c1 c2 (x : audio F) := [Others J [Deliver J {| h_id := 1; h_cv := c1 |}]; Prepare J s; Process J x;
     Others J [Deliver J {| h_id := 2; h_cv := c2 |}]; Process J x; Process J x; Reset J; Process J x; Clear J; Process J x] in
  exists c1 c2 c1' c2', conv_make TI (floats one) 48 sp1 = Ok c1 /\ conv_make TI (floats two) 48 sp2 = Ok c2 /\
    Forall2 (same_op TI Rs 9 2) (calls Ji c1 c2 (floats b)) (calls' Js c1' c2' b) /\ legal Js 2 (fun _ => True) None (calls' Js c1' c2' b) /\
    exists e outs e' outs', eng_run Ji (eng_new Ji []) (calls Ji c1 c2 (floats b)) = Ok (e, outs) /\
      eng_run Js (eng_new Js []) (calls' Js c1' c2' b) = Ok (e', outs') /\ Forall2 same_block outs outs' /\ e_log Ji e = e_log Js e'.
Proof.
  intros F I Rs Ji Js one two sp1 sp2 s b calls calls'.
  pose proof ints_hold as Iok. pose proof opp_hold as Iop.
  assert (M1 : exists c c', conv_make TI (floats one) 48 sp1 = Ok c /\ well_made Rs 2 5000 one 48 sp1 c' /\ made_alike TI Rs 9 2 c c').
  { apply (floats_make 48 5 [{| pl_size := 1; pl_num := 17 |}; {| pl_size := 8; pl_num := 18 |}]).
    - vm_compute. reflexivity.
    - lia.
    - vm_compute. reflexivity.
    - intros q [<-|[]]. cbn. lia.
    - right. reflexivity.
    - intros c [<-|[<-|[]]]; apply tab_length.
    - intros c x [<-|[<-|[]]] Hx; apply in_tab in Hx as (i & Hi & ->).
      + apply Iok. pose proof (Nat.mod_upper_bound i 7). lia.
      + apply Iop. exact Hi.
    - reflexivity.
    - change (2 <= 2)%nat. lia.
    - intros i [<-|[<-|[]]]; lia.
    - change (2 <= 2)%nat. lia.
    - intros i [<-|[<-|[]]]; lia. }
  assert (M2 : exists c c', conv_make TI (floats two) 48 sp2 = Ok c /\ well_made Rs 2 5000 two 48 sp2 c' /\ made_alike TI Rs 9 2 c c').
  { apply (floats_make 48 5 [{| pl_size := 1; pl_num := 17 |}; {| pl_size := 8; pl_num := 18 |}]).
    - vm_compute. reflexivity.
    - lia.
    - vm_compute. reflexivity.
    - intros q [<-|[]]. cbn. lia.
    - left. reflexivity.
    - intros c [<-|[]]; apply tab_length.
    - intros c x [<-|[]] Hx; apply in_tab in Hx as (i & Hi & ->). apply Iop. exact Hi.
    - reflexivity.
    - change (1 <= 1)%nat. lia.
    - intros i [<-|[]]; lia.
    - change (1 <= 1)%nat. lia.
    - intros i [<-|[]]; lia. }
  clearbody one two. destruct M1 as (c1 & c1' & E1 & _ & A1). destruct M2 as (c2 & c2' & E2 & _ & A2).
  exists c1, c2, c1', c2'. split; [exact E1|]. split; [exact E2|].
  destruct (floats_good b) as [Gb Bb].
  { intros c x [<-|[<-|[]]] Hx; apply in_tab in Hx as (i & Hi & ->); [apply Iok; lia|]. change 1 with (INR 1). apply Iok. lia. }
  assert (SP : same_op TI Rs 9 2 (Process Ji (floats b)) (Process Js b)) by (constructor; assumption).
  assert (HS : Forall2 (same_op TI Rs 9 2) (calls Ji c1 c2 (floats b)) (calls' Js c1' c2' b)).
  { unfold calls, calls'. clear - A1 A2 SP.
    repeat (apply Forall2_cons; [first [exact SP|constructor; cbn; lia|constructor; constructor; [now constructor|constructor]|constructor]|]). constructor. }
  assert (HL : legal Js 2 (fun _ => True) None (calls' Js c1' c2' b)).
  { assert (HP : exists M m, Some (ps_max_block s) = Some M /\ (m <= M)%nat /\ block_of 2 m b).
    { exists 48%nat, 40%nat. split; [reflexivity|]. split; [lia|]. split; [reflexivity|]. intros c [<-|[<-|[]]]; apply tab_length. }
    assert (HSp : spec_ok 2 s) by (unfold spec_ok, rate_ok; cbn; lia).
    unfold calls'. cbn [legal]. split; [intros h _; exact Logic.I|]. split; [exact HSp|]. split; [exact HP|]. split; [intros h _; exact Logic.I|].
    split; [exact HP|]. split; [exact HP|]. split; [discriminate|]. split; [exact HP|]. split; [discriminate|]. split; [exact HP|exact Logic.I]. }
  split; [exact HS|]. split; [exact HL|].
  apply (C73_engine_no_overflow OverflowExample.cosf OverflowExample.sinf OverflowExample.powf rounded_power TI Rs 9 tau12 2); try assumption; try lia.
  - apply T_sized.
  - apply T_bounded.
  - apply TI_same.
  - apply tau12_range.
  - apply rounded_power_accurate. lia.
  - apply I_roots. lia.
  - constructor.
Qed.
(** The same library and engine for blocks of 64 samples: a response of 5000 samples is delivered, then any blocks of finite samples
    up to 65536 follow. *)
Example C73_last_response_example :
  let F := SingleWith rounded_power in
  let I := IEEE OverflowExample.cosf OverflowExample.sinf OverflowExample.powf in
  let Rs := @RealFFTProof.fast_rfft F in
  let Ji := convolver_if TI in
  let ir : audio F := [tab 5000 (fun i => INR (i mod 7)); tab 5000 (fun i => - INR i)] in
  exists c, conv_make TI (floats ir) 64 (stereo kCrossfade) = Ok c /\
  forall (bs bs' : list (audio I)) (rs rs' : list (audio F)),
  @Forall2 (audio I) (audio F) same_block (bs ++ bs') (rs ++ rs') -> length bs = length rs -> (forall b, In b (rs ++ rs') -> block_below 65536 b) ->
  fits 2 64 rs -> fits 2 64 rs' -> (settling_time bounds44 64 <= total rs)%nat ->
  exists e before during outs (outs' : list (audio F)),
    eng_run Ji (eng_new Ji []) ([Prepare Ji spec44; Others Ji [Deliver Ji {| h_id := 0; h_cv := c : cv Ji |}]] ++ map (Process Ji) (bs ++ bs'))
      = Ok (e, before ++ during ++ outs) /\
    length during = length bs /\ length outs = length bs' /\ @Forall2 (audio I) (audio F) same_block outs outs' /\
    forall X, peak_below X (rs ++ rs') -> forall o t, (o < 2)%nat -> (5000 <= t < total rs')%nat ->
      Rabs (nth t (channel o outs') 0 - nth (total rs + t) (@mixed Rarith 2 (fun c => nth c ir []) [0; 1]%nat [1; 0]%nat (rs ++ rs') o) 0)
      <= convolver_error (transform_error tau12 7) tau12 5000 64 ir (stereo kCrossfade) X o.
Proof.
  intros F I Rs Ji ir.
  assert (M1 : exists c c', conv_make TI (floats ir) 64 (stereo kCrossfade) = Ok c /\ well_made Rs 2 5000 ir 64 (stereo kCrossfade) c' /\ made_alike TI Rs 9 2 c c').
  { apply (floats_make 64 6 [{| pl_size := 1; pl_num := 9 |}; {| pl_size := 4; pl_num := 18 |}]).
    - vm_compute. reflexivity.
    - lia.
    - vm_compute. reflexivity.
    - intros q [<-|[]]. cbn. lia.
    - right. reflexivity.
    - intros c [<-|[<-|[]]]; apply tab_length.
    - intros c x [<-|[<-|[]]] Hx; apply in_tab in Hx as (i & Hi & ->).
      + apply ints_hold. pose proof (Nat.mod_upper_bound i 7). lia.
      + now apply opp_hold.
    - reflexivity.
    - change (2 <= 2)%nat. lia.
    - intros i [<-|[<-|[]]]; lia.
    - change (2 <= 2)%nat. lia.
    - intros i [<-|[<-|[]]]; lia. }
  assert (L2 : length ir = 2%nat) by reflexivity. clearbody ir.
  destruct M1 as (c & c' & Ec & W & HA). exists c. split; [exact Ec|]. intros bs bs' rs rs' HB HBl HX Hf Hf' Ht.
  destruct (@one_load_meets F Rs ir 5000 false c' L2 W) as (Eb & st & eng & _ & _ & _ & _ & _ & Hl & Hs & E0 & Hu & Hnl & _).
  destruct (one_delivery (convolver_if Rs) false spec44 bounds44 {| h_id := 0; h_cv := c' : cv (convolver_if Rs) |} Eb) as (eng2 & E2 & EL & _).
  assert (EE : Ok (eng2, @nil (audio F)) = Ok (eng, [])) by (etransitivity; [symmetry; exact E2|exact E0]). injection EE as ->.
  pose proof (C73_last_response_is_heard OverflowExample.cosf OverflowExample.sinf OverflowExample.powf rounded_power TI Rs 9 tau12 (transform_error tau12 7) 2
    T_sized T_bounded TI_same tau12_range (rounded_power_accurate 9 ltac:(lia)) (I_roots 9 ltac:(lia)) ltac:(lia) [] []
    [Prepare Ji spec44; Others Ji [Deliver Ji {| h_id := 0; h_cv := c : cv Ji |}]]
    [Prepare _ spec44; Others _ [Deliver _ {| h_id := 0; h_cv := c' : cv (convolver_if Rs) |}]] bs rs bs' rs') as G.
  cbv zeta in G. change (convolver_if TI) with Ji in G.
  destruct G with (s := spec44) (er := eng) (b := bounds44) (outs0 := @nil (audio F)) (i := 0%nat) as (h0 & D0 & _ & G2); clear G; try assumption.
  - constructor.
  - constructor; [constructor; cbn; lia|]. constructor; [constructor; constructor; [now constructor|constructor]|constructor].
  - exact (f_equal (latest None) EL).
  - apply one_delivers with (cleared := false) (s := spec44) in D0. subst h0.
    destruct (G2 5000%nat ir 64%nat (stereo kCrossfade) W (precise64 kCrossfade)) as (e & before & during & outs & outs' & Q1 & Q2 & Q3 & Q4 & Q5).
    exists e, before, during, outs, outs'. split; [exact Q1|]. split; [exact Q2|]. split; [exact Q3|]. split; [exact Q4|].
    intros X HP o t Ho Htt. specialize (Q5 X HP o t Ho Htt). change (cs_in (stereo kCrossfade)) with [0; 1]%nat in Q5. change (cs_out (stereo kCrossfade)) with [1; 0]%nat in Q5.
    refine (eq_ind (length ir) (fun n => Rabs (_ - nth (total rs + t) (@mixed Rarith n (fun c => nth c ir []) [0; 1]%nat [1; 0]%nat (rs ++ rs') o) 0) <= _) Q5 2%nat L2).
Qed.
