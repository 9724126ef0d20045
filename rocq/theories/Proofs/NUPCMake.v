(** * TimeDistributedNUPC: construction, without laws of arithmetic *)
From Verif.Model Require Import Base Arith Juce Float32 ComplexBuffer SplitBlock CircularBuffer FFT
     Partitioning PartitionSchemes UniformPartitionedConvolver TimeDistributedUPC
     TimeDistributedUPCMulti TimeDistributedNUPC.
From Verif.Spec Require Import Transform Buffers Signal Layout.
From Verif.Proofs Require Import Lists ComplexAlg Butterfly FFTProof Blocks Delay FloatProof Streams UPCProof
     TDUPCProof TDUPCStream MultiProof PartitionProof NUPCProof UPCFloat NUPCFloat.

(** one sub-convolver: 2^pc_s blocks per partition, pc_K partitions, its response *)
Record piece (A : arith) : Type := { pc_s : nat; pc_K : nat; pc_h : nat -> nat -> sample A }.
Arguments pc_s {A}. Arguments pc_K {A}. Arguments pc_h {A}.

Section Make.
  Context {A : arith} (Z0 : zero_laws A) (R : rfft A).
  Hypothesis fwd_len : forall k d, 0 < k -> length d = 2 * 2 ^ k -> length (rfft_fwd R k d) = 2 * 2 ^ k.
  Hypothesis inv_len : forall k d, 0 < k -> length d = 2 * 2 ^ k -> length (rfft_inv R k d) = 2 * 2 ^ k.
  Notation S := (sample A).
  Notation sig := (nat -> nat -> S).
  Variables (n m : nat) (ir : audio A).
  Hypothesis (Hn : 0 < n) (Hl : 0 < length ir) (Hsh : shaped (length ir) m ir).
  Hypothesis (Hm : 0 < m) (H24 : (Z.of_nat m <= 2 ^ 24)%Z).

  Definition p_in (b : nat) (d : piece A) (x : sig) (T : nat) (mu : multi A) : Prop :=
    exists off nd p0, multi_stream b (pc_s d) n (pc_K d) (pc_h d) off nd p0 x T mu.
  Definition p_out (b : nat) (d : piece A) (x : sig) (c t : nat) (v : S) : Prop :=
    exists p0, v = tdy b (pc_s d) (pc_K d) (pc_h d c) p0 (x c) t.
  Definition u_in (B k Ku off : nat) (x : sig) (T : nat) (u : upc A) : Prop :=
    UPCFloat.at_rest_or_mid R n B k Ku (ir_fun (seg ir 0 off)) x T u.
  Definition u_out (B k Ku off : nat) (x : sig) (c t : nat) (v : S) : Prop :=
    UPCFloat.upc_out R B k Ku (ir_fun (seg ir 0 off)) x c t v.

  (** the sub-convolvers made of the layout [l] for the response from [off] on *)
  Fixpoint pieces (B off : nat) (l : list layout) (ds : list (piece A)) : Prop :=
    match l, ds with
    | [], [] => m <= off
    | a :: l', d :: ds' =>
        exists num, 0 < pc_s d /\ 0 < num /\
          (0 < pc_K d <= num /\ (pc_K d - 1) * (2 ^ pc_s d * B) < m - off) /\
          pl_size a = Z.of_nat (2 ^ pc_s d) /\ pl_num a = Z.of_nat num /\
          off < m /\ off = 2 * (2 ^ pc_s d * B) + B /\
          Nat.min (2 ^ pc_s d * num * B) (m - off) <= pc_K d * (2 ^ pc_s d * B) /\
          (forall c j, pc_h d c j = if j <? Nat.min (2 ^ pc_s d * num * B) (m - off) then ir_fun ir c (off + j) else s0) /\
          pieces B (off + 2 ^ pc_s d * num * B) l' ds'
    | _, _ => False
    end.

  Lemma pieces_sound B : forall l off ds, pieces B off l ds -> forall d, In d ds -> 0 < pc_s d /\ 0 < pc_K d.
  Proof.
    induction l as [|a l IH]; intros off [|d ds] H e He; cbn [pieces] in H; try destruct He; try tauto.
    - subst e. destruct H as (num & H1 & H2 & H3 & _). lia.
    - destruct H as (num & _ & _ & _ & _ & _ & _ & _ & _ & _ & H). eapply IH; eauto.
  Qed.

  Lemma subs_make b : forall l off, cover (2 ^ b) m off l ->
    exists ds ms, nupc_subs n (2 ^ b) ir off l = Ok (ms, repeat (2 * 2 ^ b) (length ds)) /\
      pieces (2 ^ b) off l ds /\ forall x, Forall2 (fun d => p_in b d x 0) ds ms.
  Proof.
    pose proof (pow2_pos b) as HB.
    induction l as [|a l IH]; intros off Hc; cbn [cover] in Hc.
    - exists [], []. split; [reflexivity|]. split; [exact Hc|]. constructor.
    - destruct Hc as (Hoff & s & num & Hs & Hnum & Ea & En & Eoff & Hc).
      pose proof (pow2_pos s) as Hs2.
      set (size := 2 ^ s * num * 2 ^ b) in *.
      assert (Hsize : 0 < size) by (unfold size; nia).
      destruct (IH _ Hc) as (ds & ms & E & Hp & HF).
      set (len := Nat.min size (m - off)).
      destruct (multi_make_ok Z0 b s Hs n (seg ir off len) len) as (K & mu & HK & (HKm & HKl) & Emu & Hst & _).
      { unfold seg. now rewrite mk_length. }
      { unfold seg. rewrite mk_length. apply shaped_mk. }
      { lia. } { lia. }
      rewrite Nat.pow_add_r in HKm, HKl.
      exists ({| pc_s := s; pc_K := K; pc_h := ir_fun (seg ir off len) |} :: ds), (mu :: ms).
      split.
      { cbn [nupc_subs length repeat]. unfold pl_samples. rewrite Ea, En.
        unfold nat_of. destruct (Z.ltb_spec (Z.of_nat (2 ^ s) * Z.of_nat num * Z.of_nat (2 ^ b)) 0); [lia|]. cbn [bind].
        destruct (Z.ltb_spec (Z.of_nat (2 ^ s)) 0); [lia|]. cbn [bind].
        rewrite <- !Nat2Z.inj_mul, !Nat2Z.id. fold size.
        rewrite (ir_samples m ir Hl Hsh). unfold usub at 1. destruct (Nat.leb_spec off m); [|lia]. cbn [bind].
        fold len. rewrite (ir_seg m ir Hl Hsh) by lia. cbn [bind]. rewrite Emu. cbn [bind].
        unfold usub. destruct (Nat.leb_spec (2 * (2 ^ s * 2 ^ b)) (off + 2 ^ b)); [|lia]. cbn [bind].
        rewrite E. cbn [bind]. do 3 f_equal. lia. }
      split.
      { cbn [pieces pc_s pc_K pc_h]. exists num. do 2 (split; [assumption|]).
        split; [split; [split; [assumption|]|]|].
        { assert (K - 1 < num); [|lia]. apply Nat.mul_lt_mono_pos_r with (p := 2 ^ s * 2 ^ b); [nia|].
          unfold len, size in HKl. nia. }
        { unfold len in HKl. lia. }
        do 4 (split; [assumption|]). split; [exact HKm|]. split; [|exact Hp].
        intros c j. apply (seg_fun n m ir Hn Hl Hm). }
      intros x. constructor; auto. red. cbn [pc_s pc_K pc_h]. do 3 eexists. apply Hst.
  Qed.

  Definition state B b k Ku off ds : sig -> nat -> nupc A -> Prop :=
    NUPCFloat.nst n B ds (u_in B k Ku off) (p_in b) (p_out b).
  Definition output B b k Ku off ds : sig -> nat -> nat -> S -> Prop :=
    NUPCFloat.nout B ds (u_out B k Ku off) (p_out b).

  Section Running.
    Variables (B b k Ku off : nat) (l : list layout) (ds : list (piece A)).
    Hypothesis (HB : 0 < B) (HBb : ds = [] \/ B = 2 ^ b) (Hk : 0 < k) (HF : 2 * B <= 2 ^ k) (HKu : 0 < Ku).
    Hypothesis Hds : forall d, In d ds -> 0 < pc_s d /\ 0 < pc_K d.
    Lemma sub_runs d x T mu : In d ds -> p_in b d x T mu ->
      exists mu' y, multi_process mu (mk n B (fun c i => x c (T + i))) = Ok (mu', mk n B y) /\
        (forall c i, c < n -> i < B -> p_out b d x c (T + i) (y c i)) /\ p_in b d x (T + B) mu'.
    Proof.
      intros Hd (o & nd & p0 & H). destruct HBb as [E|EB]; [rewrite E in Hd; destruct Hd|].
      destruct (Hds d Hd) as [Hs HK].
      destruct (multi_process_any b (pc_s d) Hs n (pc_K d) (pc_h d) o nd p0 x T mu HK H) as (mu' & E & H').
      rewrite <- EB in E, H'. exists mu'. eexists. split; [exact E|]. split.
      - intros c i _ _. exists p0. reflexivity.
      - red. eauto.
    Qed.
    Lemma sub_resets d x T mu x' : In d ds -> p_in b d x T mu -> p_in b d x' 0 (multi_reset mu).
    Proof.
      intros Hd (o & nd & p0 & H). destruct (Hds d Hd) as [Hs HK]. red. do 3 eexists.
      eapply (multi_reset_ok Z0); eauto.
    Qed.
    Lemma state_process x T nu len : state B b k Ku off ds x T nu ->
      exists nu' y, nupc_process R nu (mk n len (fun c i => x c (T + i))) = Ok (nu', mk n len y) /\
        (forall c i, c < n -> i < len -> output B b k Ku off ds x c (T + i) (y c i)) /\ state B b k Ku off ds x (T + len) nu'.
    Proof.
      refine (NUPCFloat.nupc_process_ok R n B ds Hn HB (u_in B k Ku off) (u_out B k Ku off) _ (p_in b) (p_out b) sub_runs sub_resets x T nu len).
      intros x0 T0 u m0 H0. exact (UPCFloat.upc_process_ok R fwd_len inv_len n B k Ku _ x0 Hn HB Hk HF HKu T0 u m0 H0).
    Qed.
    Lemma state_reset x T nu x' : state B b k Ku off ds x T nu -> state B b k Ku off ds x' 0 (nupc_reset nu).
    Proof.
      refine (NUPCFloat.nupc_reset_ok n B ds Hn HB (u_in B k Ku off) _ (p_in b) (p_out b) sub_resets x T nu x').
      intros x0 T0 u x1 H0. left. exists 0. split; [reflexivity|]. eapply UPCFloat.upc_reset_ok; eauto.
    Qed.
  End Running.

  (** a new convolver *)
  Lemma make_from_layout B b a l k :
    0 < B -> (l = [] \/ B = 2 ^ b) -> pl_size a = 1%Z -> (0 < pl_num a)%Z ->
    GetPartitionScheme kGarciaResults (Z.of_nat B) (Z.of_nat m) = Ok (a :: l) ->
    let off := Nat.min (Z.to_nat (pl_num a) * B) m in
    cover B m off l -> next_pow2 (B * 2) = 2 ^ k ->
    exists nu Ku ds, nupc_make R ir n B = Ok nu /\ 0 < k /\ 2 * B <= 2 ^ k /\ 0 < Ku <= Z.to_nat (pl_num a) /\
      (Ku - 1) * B < off <= Ku * B /\ pieces B off l ds /\ (ds = [] \/ B = 2 ^ b) /\
      forall x, state B b k Ku off ds x 0 nu.
  Proof.
    intros HB HBb Ea En Es off Hcov Ek. unfold nupc_make.
    rewrite (ir_samples m ir Hl Hsh), assert_true by (now apply Nat.ltb_lt). cbn [bind]. rewrite Es. cbn [bind].
    unfold pl_samples. rewrite Ea. unfold nat_of at 1.
    destruct (Z.ltb_spec (1 * pl_num a * Z.of_nat B) 0); [nia|]. cbn [bind].
    replace (Z.to_nat (1 * pl_num a * Z.of_nat B)) with (Z.to_nat (pl_num a) * B).
    2: { rewrite Z.mul_1_l, Z2Nat.inj_mul, Nat2Z.id by lia. reflexivity. }
    fold off.
    assert (Hoff : 0 < off <= m) by (unfold off; nia).
    rewrite (ir_seg m ir Hl Hsh) by lia. cbn [bind].
    destruct (UPCFloat.upc_make_ok R fwd_len n B (seg ir 0 off) off) as (k' & Ku & u & Hk & (HF & Ek') & HKu & (HKm & HKl) & Eu & Hrest); auto.
    { unfold seg. now rewrite mk_length. }
    { unfold seg. rewrite mk_length. apply shaped_mk. }
    { lia. } { lia. }
    assert (k' = k) by (rewrite Ek in Ek'; symmetry; apply (Nat.pow_inj_r 2) in Ek'; lia). subst k'.
    rewrite Eu. cbn [bind].
    assert (HS : exists ds ms, nupc_subs n B ir off l = Ok (ms, repeat (2 * B) (length ds)) /\
      pieces B off l ds /\ (ds = [] \/ B = 2 ^ b) /\ forall x, Forall2 (fun d => p_in b d x 0) ds ms).
    { destruct HBb as [-> | ->].
      - exists [], []. cbn [cover] in Hcov. split; [reflexivity|]. split; [exact Hcov|]. split; [auto|]. constructor.
      - destruct (subs_make b l off Hcov) as (ds & ms & H1 & H2 & H3). exists ds, ms. auto. }
    destruct HS as (ds & ms & ES & Hp & HBd & HF2).
    rewrite ES. cbn [bind]. pose proof (pieces_sound B l off ds Hp) as Hds.
    eexists. exists Ku, ds. split; [reflexivity|]. do 2 (split; [assumption|]).
    split; [split; [assumption|]|].
    { assert (Ku - 1 < Z.to_nat (pl_num a)); [|lia]. apply Nat.mul_lt_mono_pos_r with (p := B); [lia|].
      unfold off in HKl. lia. }
    split; [split; [exact HKl|exact HKm]|]. split; [exact Hp|]. split; [exact HBd|]. intros x.
    apply (state_reset B b k Ku off ds HB Hk HF HKu Hds x 0).
    assert (Hlen : length ms = length ds) by (specialize (HF2 x); clear - HF2; induction HF2; cbn; congruence).
    replace (match ms with [] => 0 | _ => last (repeat (2 * B) (length ds)) 0 end) with (match ms with [] => 0 | _ => 2 * B end).
    2: { destruct ms; [reflexivity|]. rewrite (last_repeat n m ir Hn Hl Hm); [reflexivity|]. rewrite <- Hlen. cbn. lia. }
    apply NUPCFloat.nst_new; auto. left. exists 0. split; [reflexivity|apply Hrest].
  Qed.

  Lemma make_any B k l : 0 < B -> next_pow2 (B * 2) = 2 ^ k ->
    GetPartitionScheme kGarciaResults (Z.of_nat B) (Z.of_nat m) = Ok l ->
    exists a l', l = a :: l' /\ (0 < pl_num a)%Z /\ 
    let off := Nat.min (Z.to_nat (pl_num a) * B) m in
    (l' = [] \/ off = Z.to_nat (pl_num a) * B) /\
    exists b nu Ku ds, nupc_make R ir n B = Ok nu /\ 0 < k /\ 2 * B <= 2 ^ k /\ 0 < Ku <= Z.to_nat (pl_num a) /\
      (Ku - 1) * B < off <= Ku * B /\ pieces B off l' ds /\ (ds = [] \/ B = 2 ^ b) /\
      forall x, state B b k Ku off ds x 0 nu.
  Proof.
    intros HB Ek El. destruct (find_results kGarciaResults (Z.of_nat B)) as [results|] eqn:Ef.
    - destruct (tables_pow2 _ _ Ef) as (b & Eb). apply Nat2Z.inj in Eb.
      destruct (scheme_good _ (Z.of_nat m) _ Ef) as (l0 & E & a & t & -> & G1 & G2 & G3 & G4); [lia|].
      rewrite El in E. injection E as ->. exists a, t. split; [reflexivity|]. split; [lia|]. intros off.
      assert (Hc : cover B m (Z.to_nat (layout_samples (Z.of_nat B) [a])) t).
      { apply (good_cover B m a) with (pre := []); [nia| |cbn [app]; lia].
        intros p c post Ep. cbn [app] in Ep. destruct (G3 p c post Ep) as (P1 & P2 & P3 & P4). auto. }
      cbn [layout_samples] in Hc. rewrite G1 in Hc.
      replace (Z.to_nat (1 * pl_num a * Z.of_nat B + 0)) with (Z.to_nat (pl_num a) * B) in Hc.
      2: { rewrite Z.add_0_r, Z.mul_1_l, Z2Nat.inj_mul, Nat2Z.id by lia. reflexivity. }
      assert (Ho : t = [] \/ off = Z.to_nat (pl_num a) * B).
      { destruct t; [now left|right]. cbn [cover] in Hc. unfold off. lia. }
      split; [exact Ho|]. exists b.
      apply make_from_layout; auto; [lia|].
      destruct Ho as [->|Ho]; [cbn [cover] in *; lia|]. fold off. rewrite Ho. exact Hc.
    - set (a := {| pl_size := 1; pl_num := zceil (Z.of_nat m) (Z.of_nat B) |}).
      pose proof (zceil_spec (Z.of_nat m) (Z.of_nat B) ltac:(lia)) as HZ.
      assert (Ea : GetPartitionScheme kGarciaResults (Z.of_nat B) (Z.of_nat m) = Ok [a]).
      { unfold GetPartitionScheme. rewrite Ef, num_partitions_exact by lia. reflexivity. }
      rewrite El in Ea. injection Ea as ->. exists a, []. split; [reflexivity|].
      assert (Hpos : (0 < pl_num a)%Z) by (unfold a; cbn [pl_num]; nia). split; [exact Hpos|].
      intros off. split; [now left|]. exists 0.
      apply make_from_layout; auto. unfold a. cbn [cover pl_num]. nia.
  Qed.
End Make.
