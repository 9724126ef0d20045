(** * Convolver: routing and running, without laws of arithmetic *)
From Verif.Model Require Import Base Arith Juce Float32 Partitioning UniformPartitionedConvolver
     TimeDistributedNUPC Convolver.
From Verif.Spec Require Import Transform Signal Routing.
From Verif.Proofs Require Import Lists Blocks Streams UPCProof NUPCFloat ConvolverProof.

Section Conv.
  Context {A : arith} (R : rfft A).
  Notation S := (sample A).

  Variables (w n B : nat) (spec : conv_spec).
  Hypothesis (Hn : 0 < n) (Hw : 0 < w) (HB : 0 < B).
  Hypothesis (Hin : n <= length (cs_in spec)) (Hout : n <= length (cs_out spec)).
  Hypothesis (Hri : forall i, In i (firstn n (cs_in spec)) -> i < w).
  Hypothesis (Hro : forall o, In o (firstn n (cs_out spec)) -> o < w).
  Notation inp c := (nth c (cs_in spec) 0).
  Notation outp c := (nth c (cs_out spec) 0).

  (** the first [q] channels routed to [o], added up one by one *)
  Fixpoint rmix (q : nat) (f : nat -> S) (o : nat) : S :=
    match q with
    | 0 => s0
    | Datatypes.S q' => if outp q' =? o then sadd (rmix q' f o) (f q') else rmix q' f o
    end.
  Lemma rmix_ext q f g o : (forall ch, ch < q -> f ch = g ch) -> rmix q f o = rmix q g o.
  Proof. intros H. induction q as [|q IH]; cbn [rmix]; auto. rewrite IH, H by (auto; intros; apply H; lia). reflexivity. Qed.

  Lemma mix_out (c : convolver A) todo (sub rs : nat -> nat -> S) : c_spec c = spec -> c_channels c = n ->
    conv_route_out c (mk w todo sub) (mk n todo rs)
    = Ok (mk w todo (fun o i => rmix n (fun ch => rs ch i) o)).
  Proof.
    intros E1 E2. unfold conv_route_out. rewrite E1, E2, audio_clear_mk.
    set (F := fun q => mk w todo (fun o i => rmix q (fun ch => rs ch i) o)).
    change (mk w todo (fun _ _ => s0)) with (F 0). fold (F n).
    apply for_n_seq. intros ch Hc. rewrite get_ok with (d := 0) by lia. cbn [bind].
    assert (Ho : outp ch < w) by exact (outp_ok w n B spec Hn Hw HB Hin Hout Hro ch Hc).
    unfold F at 1. unfold mk. rewrite get_tab by exact Ho. cbn [bind]. rewrite get_tab by auto. cbn [bind].
    rewrite tab_length, tab_firstn, Nat.min_id. rewrite chan_apply_tab by lia. cbn [bind].
    unfold F at 1. unfold mk. rewrite set_tab by exact Ho. unfold F. f_equal. apply tab_ext. intros q Hq.
    destruct (Nat.eqb_spec q (outp ch)) as [->|Hne].
    - apply tab_ext. intros i Hi. cbn [rmix]. rewrite Nat.eqb_refl, Nat.sub_0_r. bcase; auto; lia.
    - apply tab_ext. intros i Hi. cbn [rmix]. destruct (Nat.eqb_spec (outp ch) q); [congruence|]. reflexivity.
  Qed.

  Variables (Ist : (nat -> nat -> S) -> nat -> nupc A -> Prop) (O : (nat -> nat -> S) -> nat -> nat -> S -> Prop).
  Hypothesis Iprocess : forall x T nu k, Ist x T nu ->
    exists nu' y, nupc_process R nu (mk n k (fun c i => x c (T + i))) = Ok (nu', mk n k y) /\
      (forall c i, c < n -> i < k -> O x c (T + i) (y c i)) /\ Ist x (T + k) nu'.
  Hypothesis Ireset : forall x T nu x', Ist x T nu -> Ist x' 0 (nupc_reset nu).

  Definition cst (x : nat -> nat -> S) (T : nat) (c : convolver A) : Prop :=
    c_spec c = spec /\ c_channels c = n /\ c_block c = B /\ (exists r, c_routing c = mk n B r) /\
    Ist (fun ch => x (inp ch)) T (c_nupc c).
  Definition cout (x : nat -> nat -> S) (o t : nat) (v : S) : Prop :=
    exists f, (forall ch, ch < n -> O (fun ch => x (inp ch)) ch t (f ch)) /\ v = rmix n f o.

  Lemma cst_round x T c size done f :
    cst x T c -> done < size ->
    (forall ch i, ch < w -> done <= i < size -> f ch i = x ch (T + (i - done))) ->
    exists c' todo y, 0 < todo <= size - done /\
      conv_round R (c, mk w size f, done)
      = Ok (c', mk w size (fun ch i => if (done <=? i) && (i <? done + todo)
                                      then y ch (i - done) else f ch i), done + todo) /\
      (forall o i, o < w -> i < todo -> cout x o (T + i) (y o i)) /\ cst x (T + todo) c'.
  Proof.
    intros (E1 & E2 & E3 & (r & Er) & HI) Hds Hf.
    set (todo := Nat.min (size - done) B). assert (Htodo : 0 < todo <= size - done) by lia.
    unfold conv_round. rewrite num_samples_mk by auto. rewrite E3. fold todo.
    rewrite whole_mk, view_sub_ok by (auto; cbn [v_len]; lia). cbn [bind v_start].
    rewrite view_read_mk by (cbn [v_start v_len]; lia). cbn [bind v_start v_len].
    rewrite Er, whole_mk, view_sub_ok by (auto; cbn [v_len]; lia). cbn [bind v_start].
    rewrite view_read_mk by (cbn [v_start v_len]; lia). cbn [bind v_start v_len].
    rewrite (route_in_ok w n B spec Hn Hw HB Hin Hout Hri) by auto. cbn [bind].
    replace (mk n todo (fun ch i => f (inp ch) (0 + done + i)))
      with (mk n todo (fun ch i => (fun ch => x (inp ch)) ch (T + i))).
    2: { apply mk_ext. intros ch i Hc Hi.
         rewrite Hf by (try apply (inp_ok w n B spec Hn Hw HB Hin Hout Hri); lia). f_equal. lia. }
    destruct (Iprocess (fun ch => x (inp ch)) T (c_nupc c) todo HI) as (nu' & y & En & HO & HI').
    rewrite En. cbn [bind]. unfold blk_copy_from at 1. rewrite blk_apply_mk by (cbn [v_start v_len]; lia). cbn [bind].
    rewrite mix_out by auto. cbn [bind].
    unfold blk_copy_from. rewrite blk_apply_mk by (cbn [v_start v_len]; lia). cbn [bind v_start v_len].
    eexists. exists todo, (fun o i => rmix n (fun ch => y ch i) o). split; [auto|]. split.
    { f_equal. f_equal. f_equal. apply mk_ext. intros ch i Hc Hi. rewrite Nat.min_id, !Nat.add_0_l.
      destruct ((done <=? i) && (i <? done + todo)) eqn:Ei; auto. }
    split.
    { intros o i Ho Hi. exists (fun ch => y ch i). split; [|reflexivity]. intros ch Hc. now apply HO. }
    split; [exact E1|]. split; [exact E2|]. split; [reflexivity|]. cbn [c_routing c_nupc].
    split; [eexists; reflexivity|exact HI'].
  Qed.

  Lemma conv_process_ok x T c k : cst x T c ->
    exists c' y, conv_process R c (mk w k (fun ch i => x ch (T + i))) = Ok (c', mk w k y) /\
      (forall o i, o < w -> i < k -> cout x o (T + i) (y o i)) /\ cst x (T + k) c'.
  Proof.
    intros HT. unfold conv_process. rewrite num_samples_mk by auto.
    set (c0 := {| c_routing := audio_clear (c_routing c) |}).
    assert (H0 : cst x T c0).
    { destruct HT as (E1 & E2 & E3 & (r & Er) & HI). unfold c0. repeat split; auto.
      cbn [c_routing]. rewrite Er, audio_clear_mk. eauto. }
    destruct (loopQ w Hw (conv_round R) (cst x) x (cout x)) with (T := T) (s := c0) (m := k)
      as (c' & d & y & E & HQ & H); auto.
    { intros. now apply cst_round. }
    exists c', y. split; auto. eapply bind_eq; [exact E|]. reflexivity.
  Qed.

  Lemma conv_reset_ok x T c x' : cst x T c -> cst x' 0 (conv_reset c).
  Proof.
    intros (E1 & E2 & E3 & (r & Er) & HI). unfold conv_reset. repeat split; auto.
    - cbn [c_routing]. rewrite Er, audio_clear_mk. eauto.
    - cbn [c_nupc]. eapply Ireset; eauto.
  Qed.
End Conv.
