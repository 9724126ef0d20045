(** * C17, C19: partition counts, the uniform partitioned convolver *)
From Verif.Model Require Import Base Arith ArithReal ArithMod Juce Float32 Partitioning
     UniformPartitionedConvolver.
From Verif.Spec Require Import Transform Buffers RealFFT Signal.
From Verif.Proofs Require Import Lists ComplexAlg Blocks FloatProof RealFFTProof Streams UPCProof.

(** C17.  The count is the one integer [k] with n <= k P < n + P. *)
Theorem C17_partition_count : forall n P : Z,
  (0 <= n <= 2 ^ 24)%Z -> (0 < P)%Z ->
  exists k, GetNumPartitionsRequiredForSegment P n = Ok k /\ (n <= k * P < n + P)%Z.
Proof.
  intros n P Hn HP. exists (zceil n P). split; [now apply num_partitions_exact|].
  pose proof (zceil_spec n P HP). lia.
Qed.
Example C17_example :
  GetNumPartitionsRequiredForSegment 2048 16000001 = Ok 7813%Z /\
  GetNumPartitionsRequiredForSegment 3 10 = Ok 4%Z.
Proof. vm_compute. auto. Qed.
(** One sample more and the last sample of the segment is left out. *)
Theorem C17_not_beyond :
  exists k, GetNumPartitionsRequiredForSegment 1 (2 ^ 24 + 1) = Ok k /\ (k * 1 < 2 ^ 24 + 1)%Z.
Proof. exists (2 ^ 24)%Z. vm_compute. auto. Qed.

(** the response channel used by channel [c] *)
Definition response {A} (ir : audio A) (c : nat) : list (sample A) := nth (c mod length ir) ir [].

(** C19 (and C26 for this class).  [n] channels, partitions of [P] samples, a response of any
    positive number of channels of [m] samples. *)
Theorem C19_uniform_convolver : forall (A : arith), arith_laws A -> forall R, rfft_ok R ->
  forall n P m (ir : audio A),
  0 < n -> 0 < P -> 0 < length ir -> block_of (length ir) m ir -> 0 < m -> (Z.of_nat m <= 2 ^ 24)%Z ->
  exists u, upc_make R n P ir = Ok u /\
            convolves n (response ir) (upc_process R) upc_reset u.
Proof.
  intros A L R HR n P m ir Hn HP Hl Hsh Hm H24.
  destruct (upc_make_ok L R HR n P ir m) as (k & K & u & Hk & HF & HK & HKm & E & Hrest); auto.
  exists u. split; auto.
  apply (convolves_gen L) with (N := K * P) (Inv := at_rest_or_mid n P k K (ir_fun ir)).
  - intros c Hc. unfold response. destruct Hsh as [_ Hsh]. rewrite Hsh; auto.
    apply nth_In. apply Nat.mod_upper_bound. lia.
  - intros x T s len HT. exact (upc_process_ok L R HR n P k K (ir_fun ir) x Hn HP Hk HF HK T s len HT).
  - intros x T s x' HT. left. exists 0. split; [reflexivity|].
    eapply upc_reset_ok; eauto.
  - intros x. left. exists 0. split; auto.
Qed.

Example C19_example :
  let ir : audio Zarith := [[1; 2; 3; 4; 5]; [7; 0; 0; 0; 1]]%Z in
  let ins : list (list (audio Zarith)) := [[[[1; 0; 2]; [1; 1; 1]; [3; 1; 4]]; [[5]; [6]; [7]]; [[1; 1; 1]; [0; 0; 2]; [9; 9; 9]]];
              [[[1; 2; 3; 4]; [4; 3; 2; 1]; [0; 0; 0; 8]]]]%Z in
  (u <- upc_make ref_rfft 3 2 ir ;;
   ' (_, outs) <- feed_sessions (upc_process ref_rfft) upc_reset u ins ;;
   Ok (map (fun o => map (fun c => channel c o) [0; 1; 2]) outs))
  = Ok (map (fun i => map (fun c => convolve (response ir c) (channel c i)) [0; 1; 2]) ins)
  /\ forall blocks, In blocks ins -> blocks_of 3 blocks.
Proof.
  split; [vm_compute; reflexivity|].
  intros blocks [<-|[<-|[]]] b; intros Hb; repeat (destruct Hb as [<-|Hb]);
    try destruct Hb; [exists 3|exists 1|exists 3|exists 4];
    (split; [reflexivity|]; intros c Hc; repeat (destruct Hc as [<-|Hc]); try destruct Hc; reflexivity).
Qed.
(** the contract of the external transform can be met, over the real numbers *)
Example C19_real : exists R : rfft Rarith, rfft_ok R.
Proof. exists ref_rfft. apply ref_rfft_ok, Rarith_laws. Qed.

Print Assumptions C17_partition_count.
Print Assumptions C17_not_beyond.
Print Assumptions C19_uniform_convolver.
