(** * Convolver: construction, routing, running *)
From Verif.Model Require Import Base Arith Juce Float32 Partitioning UniformPartitionedConvolver
     TimeDistributedNUPC Convolver.
From Verif.Spec Require Import Transform RealFFT Signal Routing.
From Verif.Proofs Require Import Lists ComplexAlg Blocks Streams UPCProof NUPCProof.

Section Conv.
  Context {A : arith} (L : arith_laws A) (R : rfft A) (HR : rfft_ok R).
  Let Sring := law_ring A L.
  Add Ring sring : Sring.
  Notation S := (sample A).

  Variables (w n m B : nat) (ir : audio A) (spec : conv_spec).
  Hypothesis (Hn : 0 < n) (Hw : 0 < w) (HB : 0 < B).
  Hypothesis (Hin : n <= length (cs_in spec)) (Hout : n <= length (cs_out spec)).
  Hypothesis (Hri : forall i, In i (firstn n (cs_in spec)) -> i < w).
  Hypothesis (Hro : forall o, In o (firstn n (cs_out spec)) -> o < w).

  Notation inp c := (nth c (cs_in spec) 0).
  Notation outp c := (nth c (cs_out spec) 0).
  Lemma inp_ok c : c < n -> inp c < w.
  Proof.
    intros Hc. apply Hri. replace (inp c) with (nth c (firstn n (cs_in spec)) 0).
    - apply nth_In. rewrite firstn_length. lia.
    - rewrite nth_firstn'. bcase; auto; lia.
  Qed.
  Lemma outp_ok c : c < n -> outp c < w.
  Proof.
    intros Hc. apply Hro. replace (outp c) with (nth c (firstn n (cs_out spec)) 0).
    - apply nth_In. rewrite firstn_length. lia.
    - rewrite nth_firstn'. bcase; auto; lia.
  Qed.

  Lemma route_in_ok (c : convolver A) todo (sub rs : nat -> nat -> S) : c_spec c = spec -> c_channels c = n ->
    conv_route_in c (mk w todo sub) (mk n todo rs) = Ok (mk n todo (fun ch i => sub (inp ch) i)).
  Proof.
    intros E1 E2. unfold conv_route_in. rewrite E1, E2.
    set (F := fun q => tab n (fun ch => tab todo (fun i => if ch <? q then sub (inp ch) i else rs ch i))).
    transitivity (Ok (F n)); [|unfold F, mk; f_equal; apply tab_ext; intros ch Hc; bcase; auto; lia].
    transitivity (for_n n (fun ch routing_sub =>
      i <- get (cs_in spec) ch ;; src <- get (mk w todo sub) i ;; dst <- get routing_sub ch ;;
      dst <- chan_apply f_copy 0 (firstn (length dst) src) dst ;; set routing_sub ch dst) (F 0)).
    { f_equal. }
    apply for_n_seq. intros ch Hc. unfold F at 1 2. rewrite get_ok with (d := 0) by lia. cbn [bind].
    unfold mk. rewrite get_tab by now apply inp_ok. cbn [bind]. rewrite get_tab by auto. cbn [bind].
    rewrite tab_length, tab_firstn, Nat.min_id. rewrite chan_apply_tab by lia. cbn [bind].
    rewrite set_tab by auto. unfold F. f_equal. apply tab_ext. intros q Hq.
    destruct (Nat.eqb_spec q ch) as [->|].
    - apply tab_ext. intros i Hi. unfold f_copy. rewrite Nat.sub_0_r. bcase; auto; lia.
    - apply tab_ext. intros i Hi. bcase; auto; lia.
  Qed.

  Lemma route_out_ok (c : convolver A) todo (sub rs : nat -> nat -> S) : c_spec c = spec -> c_channels c = n ->
    conv_route_out c (mk w todo sub) (mk n todo rs)
    = Ok (mk w todo (fun o i => ssum n (fun ch => if outp ch =? o then rs ch i else s0))).
  Proof.
    intros E1 E2. unfold conv_route_out. rewrite E1, E2, audio_clear_mk.
    set (F := fun q => mk w todo (fun o i => ssum q (fun ch => if outp ch =? o then rs ch i else s0))).
    change (mk w todo (fun _ _ => s0)) with (F 0). fold (F n).
    apply for_n_seq. intros ch Hc. rewrite get_ok with (d := 0) by lia. cbn [bind].
    unfold F at 1. unfold mk. rewrite get_tab by now apply outp_ok. cbn [bind]. rewrite get_tab by auto. cbn [bind].
    rewrite tab_length, tab_firstn, Nat.min_id. rewrite chan_apply_tab by lia. cbn [bind].
    unfold F at 1. unfold mk. rewrite set_tab by now apply outp_ok. unfold F. f_equal. apply tab_ext. intros q Hq.
    destruct (Nat.eqb_spec q (outp ch)) as [->|Hne].
    - apply tab_ext. intros i Hi. cbn [ssum]. rewrite Nat.eqb_refl, Nat.sub_0_r. bcase; auto; lia.
    - apply tab_ext. intros i Hi. cbn [ssum]. destruct (Nat.eqb_spec (outp ch) q); [congruence|]. ring.
  Qed.

  Section Run.
    (** the state of the inner convolver *)
    Variables (Ist : (nat -> nat -> S) -> nat -> nupc A -> Prop) (Yc : (nat -> nat -> S) -> nat -> nat -> S).
    Hypothesis Iprocess : forall x T nu k, Ist x T nu ->
      exists nu', nupc_process R nu (mk n k (fun c i => x c (T + i)))
                  = Ok (nu', mk n k (fun c i => Yc x c (T + i))) /\ Ist x (T + k) nu'.
    Hypothesis Ireset : forall x T nu x', Ist x T nu -> Ist x' 0 (nupc_reset nu).

    Definition cst (x : nat -> nat -> S) (T : nat) (c : convolver A) : Prop :=
      c_spec c = spec /\ c_channels c = n /\ c_block c = B /\ (exists r, c_routing c = mk n B r) /\
      Ist (fun ch => x (inp ch)) T (c_nupc c).
    Definition Yr (x : nat -> nat -> S) (o t : nat) : S :=
      ssum n (fun ch => if outp ch =? o then Yc (fun ch => x (inp ch)) ch t else s0).

    Lemma cst_round x T c size done f :
      cst x T c -> done < size ->
      (forall ch i, ch < w -> done <= i < size -> f ch i = x ch (T + (i - done))) ->
      exists c' todo, 0 < todo <= size - done /\
        conv_round R (c, mk w size f, done)
        = Ok (c', mk w size (fun ch i => if (done <=? i) && (i <? done + todo)
                                        then Yr x ch (T + (i - done)) else f ch i), done + todo) /\
        cst x (T + todo) c'.
    Proof.
      intros (E1 & E2 & E3 & (r & Er) & HI) Hds Hf.
      set (todo := Nat.min (size - done) B). assert (Htodo : 0 < todo <= size - done) by lia.
      unfold conv_round. rewrite num_samples_mk by auto. rewrite E3. fold todo.
      rewrite whole_mk, view_sub_ok by (auto; cbn [v_len]; lia). cbn [bind v_start].
      rewrite view_read_mk by (cbn [v_start v_len]; lia). cbn [bind v_start v_len].
      rewrite Er, whole_mk, view_sub_ok by (auto; cbn [v_len]; lia). cbn [bind v_start].
      rewrite view_read_mk by (cbn [v_start v_len]; lia). cbn [bind v_start v_len].
      rewrite route_in_ok by auto. cbn [bind].
      replace (mk n todo (fun ch i => f (inp ch) (0 + done + i)))
        with (mk n todo (fun ch i => (fun ch => x (inp ch)) ch (T + i))).
      2: { apply mk_ext. intros ch i Hc Hi. rewrite Hf by (try apply inp_ok; lia). f_equal. lia. }
      destruct (Iprocess (fun ch => x (inp ch)) T (c_nupc c) todo HI) as (nu' & En & HI').
      rewrite En. cbn [bind]. unfold blk_copy_from at 1. rewrite blk_apply_mk by (cbn [v_start v_len]; lia). cbn [bind].
      rewrite route_out_ok by auto. cbn [bind].
      unfold blk_copy_from. rewrite blk_apply_mk by (cbn [v_start v_len]; lia). cbn [bind v_start v_len].
      eexists. exists todo. split; [auto|]. split.
      { f_equal. f_equal. f_equal. apply mk_ext. intros ch i Hc Hi. rewrite Nat.min_id, !Nat.add_0_l.
        destruct ((done <=? i) && (i <? done + todo)) eqn:Ei; auto. }
      split; [exact E1|]. split; [exact E2|]. split; [reflexivity|]. cbn [c_routing c_nupc].
      split; [eexists; reflexivity|exact HI'].
    Qed.

    Lemma conv_process_ok x T c k : cst x T c ->
      exists c', conv_process R c (mk w k (fun ch i => x ch (T + i)))
                 = Ok (c', mk w k (fun ch i => Yr x ch (T + i))) /\ cst x (T + k) c'.
    Proof.
      intros HT. unfold conv_process. rewrite num_samples_mk by auto.
      set (c0 := {| c_routing := audio_clear (c_routing c) |}).
      assert (H0 : cst x T c0).
      { destruct HT as (E1 & E2 & E3 & (r & Er) & HI). unfold c0. repeat split; auto.
        cbn [c_routing]. rewrite Er, audio_clear_mk. eauto. }
      destruct (loop_ok w Hw (conv_round R) (cst x) x (Yr x)) with (T := T) (s := c0) (m := k)
        as (c' & d & E & H); auto.
      { intros. now apply cst_round. }
      exists c'. split; auto. eapply bind_eq; [exact E|]. reflexivity.
    Qed.

    Lemma conv_reset_ok x T c x' : cst x T c -> cst x' 0 (conv_reset c).
    Proof.
      intros (E1 & E2 & E3 & (r & Er) & HI). unfold conv_reset. repeat split; auto.
      - cbn [c_routing]. rewrite Er, audio_clear_mk. eauto.
      - cbn [c_nupc]. eapply Ireset; eauto.
    Qed.
  End Run.
End Conv.
