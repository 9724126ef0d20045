(** * C54, C55: the partition tables are the cheapest ones *)
From Verif.Model Require Import Base Partitioning PartitionSchemes GarciaOptimal.
From Verif.Spec Require Import Optimal.
From Verif.Proofs Require Import PartitionProof GarciaProof GarciaSearch GarciaTables.

(** The cost of garcia_optimal_partitioning.py (67-83, k = 1.7) for blocks of [B] samples, times five. *)
Definition script_unit : Z := 20.
Definition script_big (B : Z) (s : nat) : Z := 34 * Z.log2 (2 * B * Z.of_nat s).
Definition cheapest_for (B ir : Z) (l : list layout) : Prop := cheapest script_unit (script_big B) (Z.to_nat (ir / B)) (partitions l).

Lemma script_big_nonneg B s : (0 <= script_big B s)%Z.
Proof. unfold script_big. pose proof (Z.log2_nonneg (2 * B * Z.of_nat s)). lia. Qed.
Definition script_bigl (B : Z) (j : nat) : Z := (34 * (Z.log2 (2 * B) + Z.of_nat j))%Z.
Definition entry_check (B : Z) (m : row_map) (s : scheme) : bool :=
  (Z.modulo (ps_ir s) B =? 0)%Z && (ps_ir s / B <=? 2048)%Z &&
  check_cheapest script_unit (script_bigl B) (script_big B) 11 m (Z.to_nat (ps_ir s / B)) (partitions (ps_layout s)).
Definition table_check (B : Z) (results : list scheme) : bool :=
  (0 <? B)%Z && let m := fst (table script_unit (script_bigl B) 11 2046) in forallb (entry_check B m) results.
Lemma tables_cheapest : forallb (fun e => table_check (fst e) (snd e)) kGarciaResults = true.
Proof. vm_compute. reflexivity. Qed.
Lemma log2_shift B j : (0 < B)%Z -> Z.log2 (2 * B * Z.of_nat (2 ^ j)) = (Z.log2 (2 * B) + Z.of_nat j)%Z.
Proof.
  intros H. assert (E : Z.of_nat (2 ^ j) = (2 ^ Z.of_nat j)%Z).
  { induction j as [|j IH]; [reflexivity|]. rewrite Nat2Z.inj_succ, Z.pow_succ_r by lia. cbn [Nat.pow]. lia. }
  rewrite E. rewrite Z.log2_mul_pow2; lia.
Qed.
Lemma table_check_ok B results s : table_check B results = true -> In s results -> (0 < B)%Z /\ (B | ps_ir s)%Z /\ cheapest_for B (ps_ir s) (ps_layout s).
Proof.
  unfold table_check. rewrite andb_true_iff, Z.ltb_lt, forallb_forall. intros [HB H] HS. specialize (H s HS). unfold entry_check in H.
  rewrite !andb_true_iff, Z.eqb_eq, Z.leb_le in H. destruct H as [[H1 H2] H3]. split; auto. split; [apply Z.mod_divide; lia|].
  refine (check_cheapest_ok _ _ _ _ _ _ _ 2046 _ _ H3 _).
  - intros j. unfold script_big, script_bigl. now rewrite log2_shift.
  - unfold script_unit. lia.
  - apply script_big_nonneg.
  - lia.
Qed.

(** C54.  Every entry of the tables, for every block size, is a cheapest division of its response. *)
Theorem C54_tables : forall B results s, find_results kGarciaResults B = Some results -> In s results ->
  (0 < B)%Z /\ (B | ps_ir s)%Z /\ cheapest_for B (ps_ir s) (ps_layout s).
Proof.
  intros B results s HF HS. apply (table_check_ok B results); auto. pose proof tables_cheapest as HT. rewrite forallb_forall in HT.
  exact (HT _ (find_results_in _ _ _ HF)).
Qed.
Definition fewer_in_front (l : list layout) : list layout :=
  match l with [] => [] | a :: t => {| pl_size := pl_size a; pl_num := pl_num a - 1 |} :: t end.
Definition exact_check (B : Z) (s : scheme) : bool :=
  match GetPartitionScheme kGarciaResults B (ps_ir s) with
  | Ok l => if list_eq_dec (fun a b : layout => ltac:(decide equality; apply Z.eq_dec)) (fewer_in_front l) (ps_layout s) then true else false
  | _ => false
  end.
Lemma tables_exact : forallb (fun e => forallb (exact_check (fst e)) (snd e)) kGarciaResults = true.
Proof. vm_compute. reflexivity. Qed.
(** A response as long as an entry of the table gets that division, with one more partition in front. *)
Theorem C54_at_table_sizes : forall B results s, find_results kGarciaResults B = Some results -> In s results ->
  exists l, GetPartitionScheme kGarciaResults B (ps_ir s) = Ok l /\ cheapest_for B (ps_ir s) (fewer_in_front l).
Proof.
  intros B results s HF HS. pose proof tables_exact as HT. rewrite forallb_forall in HT.
  specialize (HT _ (find_results_in _ _ _ HF)). cbn [fst snd] in HT. rewrite forallb_forall in HT. specialize (HT s HS). unfold exact_check in HT.
  destruct (GetPartitionScheme kGarciaResults B (ps_ir s)) as [l| | ]; try discriminate HT. exists l. split; [reflexivity|].
  destruct (list_eq_dec _ (fewer_in_front l) (ps_layout s)) as [->|]; [|discriminate HT]. now apply (C54_tables B results s).
Qed.
(** Between the sizes of the table what it gets need not be the cheapest. *)
Theorem C54_between_refuted : exists B ir l, GetPartitionScheme kGarciaResults B ir = Ok l /\ (B | ir)%Z /\
  division (partitions (fewer_in_front l)) /\ covers (Z.to_nat (ir / B)) (partitions (fewer_in_front l)) /\
  ~ cheapest_for B ir (fewer_in_front l).
Proof.
  exists 16%Z, 16400%Z. eexists. split; [vm_compute; reflexivity|]. split; [exists 1025%Z; reflexivity|]. split; [apply is_division_ok; vm_compute; reflexivity|].
  split; [split; apply Nat.leb_le; vm_compute; reflexivity|]. intros (_ & _ & H).
  specialize (H (repeat 1 15 ++ repeat 8 15 ++ repeat 64 14)).
  assert (D : division (repeat 1 15 ++ repeat 8 15 ++ repeat 64 14)) by (apply is_division_ok; vm_compute; reflexivity).
  assert (C : covers (Z.to_nat (16400 / 16)) (repeat 1 15 ++ repeat 8 15 ++ repeat 64 14)) by (split; apply Nat.leb_le; vm_compute; reflexivity).
  specialize (H D C). vm_compute in H. apply H. reflexivity.
Qed.
Example C54_example : exists results s, find_results kGarciaResults 16 = Some results /\ In s results /\ ps_ir s = 16384%Z /\
  ps_layout s = [{| pl_size := 1; pl_num := 16 |}; {| pl_size := 8; pl_num := 14 |}; {| pl_size := 64; pl_num := 14 |}] /\
  cost script_unit (script_big 16) (partitions (ps_layout s)) = 1506%Z.
Proof.
  exists kGarciaResults16, {| ps_ir := 16384; ps_layout := [{| pl_size := 1; pl_num := 16 |}; {| pl_size := 8; pl_num := 14 |}; {| pl_size := 64; pl_num := 14 |}] |}.
  split; [reflexivity|]. split; [cbn; tauto|]. repeat split.
Qed.
Print Assumptions C54_tables.
Print Assumptions C54_at_table_sizes.
Print Assumptions C54_between_refuted.

(** C55.  The script returns at least one result and only cheapest divisions, whatever the block size, the response
    and the costs (positive for each partition, not negative for each new size). *)
Theorem C55_search : forall unit big latency size, (0 < unit)%Z -> (forall s, 0 <= big s)%Z -> 0 < latency -> 2 * latency <= size ->
  exists results, find_optimum unit big latency size = Ok results /\ results <> [] /\
    Forall (fun r => cheapest unit big (size / latency) (partitions (ps_layout (to_scheme latency size r)))) results.
Proof. intros unit big latency size Hu Hb Hl Hs. now apply find_optimum_cheapest. Qed.
(** With one block or none there is nothing to search, and nothing is returned. *)
Theorem C55_short : forall unit big latency size, size < 2 * latency -> find_optimum unit big latency size = Ok [].
Proof.
  intros unit big latency size H. unfold find_optimum. destruct (Nat.eqb_spec latency 0) as [|_]; [lia|].
  assert (E : size / latency - 1 = 0) by (pose proof (Nat.div_lt_upper_bound size latency 2 ltac:(lia) ltac:(lia)); lia).
  unfold build_graph. rewrite E. reflexivity.
Qed.
Example C55_example :
  (0 < script_unit)%Z /\ (forall s, 0 <= script_big 16 s)%Z /\
  find_optimum 1 (fun _ => 2%Z) 16 200 = Ok [[(16, 3); (32, 5)]; [(16, 4); (32, 4)]] /\
  partitions (ps_layout (to_scheme 16 200 [(16, 3); (32, 5)])) = repeat 1 3 ++ repeat 2 5.
Proof. split; [reflexivity|]. split; [apply script_big_nonneg|]. vm_compute. auto. Qed.
Print Assumptions C55_search.
Print Assumptions C55_short.
