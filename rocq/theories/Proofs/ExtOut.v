(** * The output of a convolver stays below 2^127 *)
From Coq Require Import Reals Lra.
From Verif.Model Require Import Base Arith ArithReal ArithSingle Juce Partitioning PartitionSchemes UniformPartitionedConvolver TimeDistributedUPC
     TimeDistributedUPCMulti TimeDistributedNUPC Convolver.
From Verif.Spec Require Import Transform Buffers Signal Layout Precision Memory Overflow.
From Verif.Proofs Require Import Lists ComplexAlg Butterfly FFTProof Blocks Norms FloatProof SingleProof SingleFFT RealFFTProof Streams StreamsQ TDUPCProof
     TDUPCStream UPCProof UPCFloat NUPCProof NUPCFloat NUPCMake ConvolverProof ConvolverFloat Ext ExtBounds.
From Verif.Props Require Import PartitionProps.
Open Scope R_scope.

Section Out.
  Variable pow : R * R -> nat -> R * R.
  Notation F := (SingleWith pow).
  Notation E := (Ext pow).
  Variable Rs : rfft F.
  Hypothesis HRs : rfft_sized Rs.
  Hypothesis HRb : rfft_bounded (@rfft_fwd F Rs) (@rfft_inv F Rs).
  Notation cb := (cb pow).
  Notation rb := (rb pow).

  (** the transform, where its data stay below 2^100 *)
  Definition val (x : option R) : R := match x with Some r => r | None => 0 end.
  Definition moderate (l : list (option R)) : bool :=
    forallb (fun x => match x with Some r => if Rle_dec (Rabs r) (2 ^ 100) then true else false | None => false end) l.
  Definition fits (k : nat) (l : list (option R)) : bool :=
    (0 <? k)%nat && (k <=? 12)%nat && (length l =? 2 * 2 ^ k)%nat && moderate l.
  Definition ext_rfft : rfft E := {|
    rfft_fwd := fun k (l : list (sample E)) =>
      (if fits k l then map Some (@rfft_fwd F Rs k (map val l)) else repeat None (length (@rfft_fwd F Rs k (repeat 0 (length l)))))
      : list (sample E);
    rfft_inv := fun k (l : list (sample E)) =>
      (if fits k l then map Some (@rfft_inv F Rs k (map val l)) else repeat None (length (@rfft_inv F Rs k (repeat 0 (length l)))))
      : list (sample E) |}.
  Lemma ext_fwd_len k (d : list (sample E)) : (0 < k)%nat -> length d = (2 * 2 ^ k)%nat -> length (rfft_fwd ext_rfft k d) = (2 * 2 ^ k)%nat.
  Proof.
    intros Hk Hd. cbn [rfft_fwd ext_rfft]. destruct (fits k d).
    - rewrite map_length. apply (sized_fwd Rs HRs); auto. now rewrite map_length.
    - rewrite repeat_length. apply (sized_fwd Rs HRs); auto. now rewrite repeat_length.
  Qed.
  Lemma ext_inv_len k (d : list (sample E)) : (0 < k)%nat -> length d = (2 * 2 ^ k)%nat -> length (rfft_inv ext_rfft k d) = (2 * 2 ^ k)%nat.
  Proof.
    intros Hk Hd. cbn [rfft_inv ext_rfft]. destruct (fits k d).
    - rewrite map_length. apply (sized_inv Rs HRs); auto. now rewrite map_length.
    - rewrite repeat_length. apply (sized_inv Rs HRs); auto. now rewrite repeat_length.
  Qed.
  Lemma fits_b k M (d : list (sample E)) : (0 < k <= 12)%nat -> length d = (2 * 2 ^ k)%nat -> M <= 2 ^ 100 -> (forall x, In x d -> rb M x) ->
    fits k d = true /\ forall r, In r (map val d) -> Rabs r <= M.
  Proof.
    intros Hk Hd HM H. split.
    - assert (Hd' : @length (option R) d = (2 * 2 ^ k)%nat) by exact Hd.
      unfold fits. rewrite (proj2 (Nat.ltb_lt _ _)), (proj2 (Nat.leb_le _ _)), Hd', Nat.eqb_refl by lia. cbn [andb].
      unfold moderate. apply forallb_forall. intros x Hx. destruct (H x Hx) as (r & -> & Hr). destruct (Rle_dec _ _); [reflexivity|lra].
    - intros r Hr. apply in_map_iff in Hr as (x & <- & Hx). destruct (H x Hx) as (r & -> & Hr). exact Hr.
  Qed.
  Lemma fwd_b k M (d : list (sample E)) : (0 < k <= 12)%nat -> length d = (2 * 2 ^ k)%nat -> 1 <= M <= 2 ^ 100 -> (forall x, In x d -> rb M x) ->
    forall y, In y (rfft_fwd ext_rfft k d) -> rb (2 ^ 13 * M) y.
  Proof.
    intros Hk Hd HM H y Hy. destruct (fits_b k M d Hk Hd (proj2 HM) H) as [G V]. cbn [rfft_fwd ext_rfft] in Hy. rewrite G in Hy.
    apply in_map_iff in Hy as (r & <- & Hr). exists r. split; [reflexivity|].
    eapply Rle_trans; [apply (bounded_fwd _ _ HRb k (map val d) M) with (y := r); try tauto; try lia|].
    - now rewrite map_length.
    - apply Rmult_le_compat_r; [lra|]. replace (2 ^ 13) with (2 * 2 ^ 12) by lra. apply Rmult_le_compat_l; [lra|]. apply Rle_pow; [lra|lia].
  Qed.
  Lemma inv_b k M (d : list (sample E)) : (0 < k <= 12)%nat -> length d = (2 * 2 ^ k)%nat -> 1 <= M <= 2 ^ 100 -> (forall x, In x d -> rb M x) ->
    forall y, In y (rfft_inv ext_rfft k d) -> rb (2 ^ 13 * M) y.
  Proof.
    intros Hk Hd HM H y Hy. destruct (fits_b k M d Hk Hd (proj2 HM) H) as [G V]. cbn [rfft_inv ext_rfft] in Hy. rewrite G in Hy.
    apply in_map_iff in Hy as (r & <- & Hr). exists r. split; [reflexivity|].
    eapply Rle_trans; [apply (bounded_inv _ _ HRb k (map val d) M) with (y := r); try tauto; try lia|].
    - now rewrite map_length.
    - apply Rmult_le_compat_r; [lra|]. replace (2 ^ 13) with (2 * 2 ^ 12) by lra. apply Rmult_le_compat_l; [lra|]. apply Rle_pow; [lra|lia].
  Qed.
  Lemma pairs_b M : 0 <= M -> forall l : list (sample E), (forall a, In a l -> rb M a) -> lb pow (3 / 2 * M) (pairs l).
  Proof.
    intros HM. fix FF 1. intros [|a [|b l]] H i; try (destruct i; apply cb_0; lra). destruct i as [|i]; cbn [pairs nth].
    - apply cb_parts; apply H; cbn; auto.
    - apply FF. intros; apply H; cbn; auto.
  Qed.
  Lemma b_pairs M n : forall l : list (sample E), length l = (2 * n)%nat -> lb pow M (pairs l) -> forall a, In a l -> rb M a.
  Proof.
    induction n as [|n IH]; intros [|u [|v l]] EL H a Ha; cbn [length] in EL; try lia; try (destruct Ha; fail).
    pose proof (H 0%nat) as H1. cbn [pairs nth] in H1. destruct Ha as [<-|[<-|Ha]].
    - exact (cb_fst _ _ _ H1).
    - exact (cb_snd _ _ _ H1).
    - apply (IH l); auto; [lia|]. intros i. apply (H (S i)).
  Qed.
  Lemma bin_b k w i : (0 < k <= 12)%nat -> (forall j, (j < 2 ^ k)%nat -> rb Xmax (w j)) -> cb (2 ^ 30) (fbin ext_rfft k w i).
  Proof.
    intros Hk H. unfold fbin. eapply cb_weaken; [apply (pairs_b (2 ^ 13 * Xmax)); [unfold Xmax; lra|]|unfold Xmax; lra].
    apply fwd_b; auto; [apply tab_length|unfold Xmax; lra|]. intros x Hx.
    apply (In_nth _ _ (@s0 E)) in Hx as (j & Hj & <-). rewrite tab_length in Hj. rewrite tab_nth by auto.
    destruct (Nat.ltb_spec j (2 ^ k)); [auto|apply rb_0; unfold Xmax; lra].
  Qed.
  Lemma upc_b P k K h x c t v : (0 < k <= 12)%nat -> (0 < K <= 2 ^ 20)%nat -> (forall c j, rb Xmax (h c j)) -> (forall c i, rb Xmax (x c i)) ->
    upc_out ext_rfft P k K h x c t v -> rb (2 ^ 96) v.
  Proof.
    intros Hk HK Hh Hx (m & pos & w & d & Hpos & Et & _ & Hp & Ld & Hd & ->).
    assert (X0 : 0 <= Xmax) by (unfold Xmax; lra).
    assert (IK : INR (K - 1) <= 2 ^ 20).
    { replace (2 ^ 20) with (INR (2 ^ 20)); [apply le_INR; lia|]. rewrite pow_INR. replace (INR 2) with 2 by (cbn; lra). reflexivity. }
    pose proof (pos_INR (K - 1)).
    assert (HH : forall i b, cb (2 ^ 30) (hbin ext_rfft P k h c i b)).
    { intros i b. apply bin_b; auto. intros j Hj. unfold hpart. destruct (_ <? _)%nat; auto. now apply rb_0. }
    assert (HM : forall z w, cb (2 ^ 30) z -> cb (2 ^ 30) w -> cb (2 ^ 61) (cmul z w)).
    { intros z z' Hz Hz'. eapply cb_weaken; [apply cb_mul; [exact Hz|exact Hz'|..]|]; unfold u24, big; lra. }
    assert (HW : forall i b, cb (2 ^ 30) (wbin ext_rfft k x c (m * P) (S i * P + (2 ^ k - P)) b)).
    { intros i b. unfold wbin. destruct (_ <=? _)%nat; [apply cb_0; lra|]. apply bin_b; auto. intros j Hj. now apply ago_b. }
    assert (Hall : forall a, In a d -> rb (2 ^ 83) a).
    { apply (b_pairs _ (2 ^ k)); [exact Ld|]. intros b. destruct (Nat.lt_ge_cases b (2 ^ k)) as [Hb|Hb].
      2: { rewrite nth_overflow; [apply cb_0; lra|]. rewrite (pairs_length (2 ^ k)) by exact Ld. exact Hb. }
      rewrite Hd by auto. eapply cb_weaken; [apply cb_add with (M := 2 ^ 61) (M' := 2 ^ 82)|]; try (unfold u24, big; lra).
      - apply HM; [|apply HH]. apply bin_b; auto. intros j Hj. destruct (Hp j Hj) as [->|(i & Hi & ->)]; [now apply rb_0|apply Hx].
      - eapply cb_weaken; [apply cb_sum with (M := 2 ^ 61); [lra|lia|unfold big; lra|]|lra].
        intros i Hi. apply HM; [apply HW|apply HH]. }
    eapply rb_weaken; [|apply Req_le; replace (2 ^ 96) with (2 ^ 13 * 2 ^ 83) by lra; reflexivity].
    destruct (Nat.lt_ge_cases pos (length (rfft_inv ext_rfft k d))) as [Hl|Hl].
    - apply inv_b with (k := k) (d := d); auto; [lra|]. now apply nth_In.
    - rewrite nth_overflow by exact Hl. apply rb_0. lra.
  Qed.

  (** ** sums of at most 2^18 real numbers *)
  Lemma step_b q M a y : (q <= 2 ^ 18)%nat -> 1 <= M -> INR (S q) * (33 / 32 * M) <= big -> rb (INR q * (33 / 32 * M)) a -> rb M y ->
    rb (INR (S q) * (33 / 32 * M)) (sadd a y).
  Proof.
    intros Hq HM HB Ha Hy. pose proof (pos_INR q).
    assert (IQ : INR q <= 2 ^ 18).
    { replace (2 ^ 18) with (INR (2 ^ 18)); [apply le_INR; lia|]. rewrite pow_INR. replace (INR 2) with 2 by (cbn; lra). reflexivity. }
    assert (G : (1 + u24) * (INR q * (33 / 32 * M) + M) <= INR (S q) * (33 / 32 * M)).
    { rewrite S_INR. assert (u24 * (INR q * (33 / 32 * M) + M) <= / 32 * M); [|lra].
      replace (u24 * (INR q * (33 / 32 * M) + M)) with ((u24 * (33 / 32 * INR q + 1)) * M) by ring.
      apply Rmult_le_compat_r; [lra|]. unfold u24. lra. }
    eapply rb_weaken; [apply rb_add; [exact Ha|exact Hy|..]|exact G]; [|lra].
    assert (0 <= INR q * (33 / 32 * M)) by (apply Rmult_le_pos; lra). lra.
  Qed.

  Definition Nmax : R := 20 * 2 ^ 111.
  Lemma rmix_b spec : forall q f o, (q <= 1024)%nat -> (forall ch, (ch < q)%nat -> rb Nmax (f ch)) ->
    rb (INR q * (33 / 32 * Nmax)) (@rmix E spec q f o).
  Proof.
    assert (N0 : 1 <= Nmax) by (unfold Nmax; lra).
    induction q as [|q IH]; intros f o Hq H; cbn [rmix]; [apply rb_0; cbn; lra|].
    assert (IS : INR (S q) <= 1024).
    { replace 1024 with (INR 1024) by (rewrite INR_IZR_INZ; reflexivity). apply le_INR. exact Hq. }
    specialize (IH f o ltac:(lia) (fun ch Hc => H ch ltac:(lia))).
    destruct (_ =? _)%nat.
    - apply step_b; auto; [|unfold Nmax, big; lra]. apply Nat.le_trans with (2 ^ 10)%nat; [cbn; lia|apply Nat.pow_le_mono_r; lia].
    - eapply rb_weaken; [exact IH|]. rewrite S_INR. lra.
  Qed.

  (** ** all parts of the response together *)
  Variables (kt : nat) (tau : R).
  Hypothesis (Htau : 0 <= tau <= / 4) (Hpow : pow_accurate pow (@cis F) (@cis_neg F) kt tau).
  Variables (m : nat) (ir : audio E).
  Hypothesis (Hm : (0 < m)%nat) (Hm24 : (Z.of_nat m <= 2 ^ 24)%Z) (Hir : forall c j, rb Xmax (nth j (nth c ir []) s0)).
  Variables (B b k Ku off : nat) (ds : list (piece E)).
  Hypothesis (HB : (32 <= B)%nat) (HBb : ds = [] \/ B = (2 ^ b)%nat) (Hk : (0 < k <= 12)%nat) (HKu : (0 < Ku)%nat) (HKl : ((Ku - 1) * B < m)%nat).

  Lemma pieces_few : forall l o ds, @pieces E m ir B o l ds -> forall d ds', ds = d :: ds' -> (2 ^ length ds * (2 ^ pc_s d * B) < m)%nat.
  Proof.
    clear ds HBb. induction l as [|a l IH]; intros o [|d ds0] H d1 ds' Ed; cbn [pieces] in H; try tauto; try discriminate.
    injection Ed as <- <-. destruct H as (num & Hs & Hnum & _ & _ & _ & Ho & Eo & _ & _ & H).
    destruct ds0 as [|d' ds0]; [cbn [length Nat.pow]; lia|].
    specialize (IH _ _ H d' ds0 eq_refl).
    assert (Hs' : (pc_s d < pc_s d')%nat).
    { destruct l as [|a' l]; cbn [pieces] in H; [tauto|]. destruct H as (num' & _ & _ & _ & _ & _ & _ & Eo' & _).
      apply (Nat.pow_lt_mono_r_iff 2); [lia|]. assert (0 < 2 ^ pc_s d)%nat by apply pow2_pos. nia. }
    assert (2 ^ S (pc_s d) <= 2 ^ pc_s d')%nat by (apply Nat.pow_le_mono_r; lia).
    set (X := (2 ^ length (d' :: ds0))%nat) in *. change (2 ^ length (d :: d' :: ds0))%nat with (2 * X)%nat. cbn [Nat.pow] in *.
    assert (X * (2 * 2 ^ pc_s d * B) <= X * (2 ^ pc_s d' * B))%nat by (apply Nat.mul_le_mono_l, Nat.mul_le_mono_r; lia). lia.
  Qed.
  Lemma m_nat : (m <= 2 ^ 24)%nat.
  Proof. apply Nat2Z.inj_le. rewrite Nat2Z.inj_pow. exact Hm24. Qed.
  Lemma pieces_number l o : @pieces E m ir B o l ds -> (length ds <= 17)%nat.
  Proof.
    clear HBb. intros H. destruct ds as [|d ds'] eqn:Eds; [cbn; lia|]. pose proof (pieces_few _ _ _ H d ds' eq_refl) as G. pose proof m_nat as Hm'.
    assert (Hs : (0 < pc_s d)%nat).
    { destruct l; cbn [pieces] in H; [tauto|]. destruct H as (num & Hs & _). exact Hs. }
    assert (2 <= 2 ^ pc_s d)%nat by (change 2%nat with (2 ^ 1)%nat at 1; apply Nat.pow_le_mono_r; lia).
    set (L := length (d :: ds')) in *. enough (L < 18)%nat by lia. apply (Nat.pow_lt_mono_r_iff 2); [lia|].
    apply Nat.mul_lt_mono_pos_l with (p := (2 ^ 6)%nat); [cbn; lia|]. rewrite <- (Nat.pow_add_r 2 6 18). change (6 + 18)%nat with 24%nat.
    apply Nat.lt_le_trans with m; [|exact Hm']. eapply Nat.le_lt_trans; [|exact G]. rewrite Nat.mul_comm. apply Nat.mul_le_mono_l.
    change (2 ^ 6)%nat with (2 * 32)%nat. apply Nat.mul_le_mono; assumption.
  Qed.
  Lemma pieces_sizes : forall l o ds, @pieces E m ir B o l ds -> (forall q, In q l -> (2 * (Z.to_nat (pl_size q) * B) <= 2 ^ kt)%nat) ->
    forall d, In d ds ->
    (0 < pc_s d)%nat /\ (2 * (2 ^ pc_s d * B) <= 2 ^ kt)%nat /\ (2 * (2 ^ pc_s d * B) < m)%nat /\
    (0 < pc_K d)%nat /\ (pc_K d * (2 * (2 ^ pc_s d * B)) <= 2 * m)%nat /\
    forall c j, rb Xmax (pc_h d c j).
  Proof.
    clear ds HBb. induction l as [|a l IH]; intros o [|d0 ds0] H Hq d Hd; cbn [pieces] in H; try destruct Hd; try tauto.
    - subst d0. destruct H as (num & Hs & Hnum & ((HK & _) & HKs) & Ea & _ & Ho & Eo & _ & Hh & _). split; [exact Hs|].
      split; [|split; [lia|split; [exact HK|split]]].
      + specialize (Hq a (or_introl eq_refl)). rewrite Ea, Nat2Z.id in Hq. exact Hq.
      + set (P := (2 ^ pc_s d * B)%nat) in *. assert (pc_K d * (2 * P) = 2 * ((pc_K d - 1) * P) + 2 * P)%nat by nia. lia.
      + intros c j. rewrite Hh. destruct (_ <? _)%nat; [apply Hir|apply rb_0; unfold Xmax; lra].
    - destruct H as (num & _ & _ & _ & _ & _ & _ & _ & _ & _ & H). eapply IH; eauto. intros; apply Hq; now right.
  Qed.

  Lemma nout_b l o x c t v : (forall c i, rb Xmax (x c i)) -> @pieces E m ir B o l ds ->
    (forall q, In q l -> (2 * (Z.to_nat (pl_size q) * B) <= 2 ^ kt)%nat) ->
    output ext_rfft ir B b k Ku off ds x c t v -> rb Nmax v.
  Proof.
    intros Hx Hp Hq (vu & Hu & Hv). pose proof m_nat as Hm'.
    assert (Hvu : rb (2 ^ 96) vu).
    { eapply upc_b; [exact Hk| | |exact Hx|exact Hu].
      - split; [exact HKu|]. assert (Ku * 32 <= 2 ^ 24 + 32)%nat by nia.
        apply Nat.mul_le_mono_pos_r with (p := 32%nat); [lia|]. eapply Nat.le_trans; [exact H|]. change 32%nat with (2 ^ 5)%nat.
        rewrite <- Nat.pow_add_r. cbn [Nat.add]. rewrite (Nat.pow_succ_r' 2 24). apply Nat.add_le_mono; [lia|].
        rewrite Nat.add_0_r. apply Nat.pow_le_mono_r; lia.
      - intros c' j. unfold ir_fun, seg, mk. set (S := tab (length ir) _).
        destruct (Nat.lt_ge_cases (c' mod length S) (length S)) as [H|H].
        2: { rewrite (nth_overflow S) by exact H. destruct j; apply rb_0; unfold Xmax; lra. }
        unfold S in *. rewrite tab_length in H. rewrite tab_length, tab_nth by exact H.
        destruct (Nat.lt_ge_cases j off) as [Hj|Hj]; [rewrite tab_nth by exact Hj; apply Hir|].
        rewrite nth_overflow by (now rewrite tab_length). apply rb_0; unfold Xmax; lra. }
    pose proof (pieces_sizes l o ds Hp Hq) as Hsz. pose proof (pieces_number l o Hp) as Hnum.
    destruct ds as [|d0 ds0] eqn:Eds; [subst v; eapply rb_weaken; [exact Hvu|unfold Nmax; lra]|]. rewrite <- Eds in *.
    destruct HBb as [EE|EB]; [congruence|].
    destruct Hv as (vr & Hr & ->).
    assert (Hvr : rb (17 * (33 / 32 * TDmax)) vr).
    { unfold rcell in Hr. destruct (Nat.ltb_spec t B); [subst vr; apply rb_0; unfold TDmax; lra|].
      assert (Hacc : forall l q a, (forall d, In d l -> In d ds) -> (q + length l <= 17)%nat -> rb (INR q * (33 / 32 * TDmax)) a ->
                accs B (p_out b) x l c t a vr -> rb (17 * (33 / 32 * TDmax)) vr).
      { induction l0 as [|d l0 IH]; intros q a Hin Hle Ha Hac; cbn [accs] in Hac.
        - subst vr. eapply rb_weaken; [exact Ha|]. apply Rmult_le_compat_r; [unfold TDmax; lra|].
          replace 17 with (INR 17) by (cbn; lra). apply le_INR. cbn in Hle. lia.
        - cbn [length] in Hle. destruct Hac as (y & (p0 & Ey) & Hac).
          apply (IH (S q) (@sadd E a y)); [intros; apply Hin; now right|lia| |exact Hac].
          assert (INR (S q) <= 17) by (replace 17 with (INR 17) by (cbn; lra); apply le_INR; lia).
          apply step_b; [apply Nat.le_trans with (2 ^ 5)%nat; [change (2 ^ 5)%nat with 32%nat; lia|apply Nat.pow_le_mono_r; lia]|unfold TDmax; lra|unfold TDmax, big; lra|exact Ha|].
          destruct (Hsz d (Hin d (or_introl eq_refl))) as (Hs & H1 & H2 & HK & H3 & Hh). rewrite Ey.
          assert (E2 : (2 * (2 ^ pc_s d * B) = 2 ^ S (pc_s d + b))%nat) by (cbn [Nat.pow]; rewrite Nat.pow_add_r, EB; lia).
          rewrite E2 in *.
          assert (2 <= 2 ^ pc_s d)%nat by (change 2%nat with (2 ^ 1)%nat at 1; apply Nat.pow_le_mono_r; lia).
          apply (tdy_b pow kt tau Htau Hpow); [| | | |exact (Hh c)|intros; apply Hx].
          + apply (Nat.pow_le_mono_r_iff 2); [lia|exact H1].
          + apply (Nat.pow_le_mono_r_iff 2); [lia|]. apply Nat.lt_le_incl. eapply Nat.lt_le_trans; [exact H2|exact Hm'].
          + split; [exact HK|]. assert (64 <= 2 ^ S (pc_s d + b))%nat by (rewrite <- E2; nia).
            assert (pc_K d * 64 <= 2 * m)%nat by nia. apply Nat.mul_le_mono_pos_r with (p := (2 ^ 6)%nat); [cbn; lia|].
            change (pc_K d * 2 ^ 6)%nat with (pc_K d * 64)%nat. rewrite <- Nat.pow_add_r. cbn [Nat.add].
            eapply Nat.le_trans; [exact H6|]. rewrite (Nat.pow_succ_r' 2 25), (Nat.pow_succ_r' 2 24). lia.
          + replace 2 with (INR 2) by (cbn; lra). rewrite <- !pow_INR, <- mult_INR. apply le_INR.
            rewrite (Nat.pow_succ_r' 2 25), (Nat.pow_succ_r' 2 24). lia. }
      apply (Hacc ds 0%nat s0); [auto|exact Hnum|cbn [INR]; apply rb_0; lra|exact Hr]. }
    eapply rb_weaken; [apply rb_add; [exact Hvu|exact Hvr|..]|]; unfold u24, big, Nmax, TDmax; lra.
  Qed.
End Out.
