(** * TimeDistributedNUPC: running *)
From Verif.Model Require Import Base Arith Juce Float32 ComplexBuffer SplitBlock CircularBuffer FFT
     Partitioning PartitionSchemes UniformPartitionedConvolver TimeDistributedUPC
     TimeDistributedUPCMulti TimeDistributedNUPC.
From Verif.Spec Require Import Transform Buffers RealFFT Signal Layout.
From Verif.Proofs Require Import Lists ComplexAlg Butterfly FFTProof Decomp Blocks Delay FloatProof RealFFTProof Streams UPCProof
     TDUPCProof TDUPCStream MultiProof PartitionProof.

(** ** loops that handle a block in several rounds *)
Section Loop.
  Context {A : arith} {St : Type}.
  Variables (n : nat) (Hn : 0 < n) (round : St * audio A * nat -> res (St * audio A * nat)).
  Variables (Inv : nat -> St -> Prop) (x Y : nat -> nat -> sample A).
  Hypothesis round_ok : forall T s size done f,
    Inv T s -> done < size ->
    (forall c i, c < n -> done <= i < size -> f c i = x c (T + (i - done))) ->
    exists s' todo, 0 < todo <= size - done /\
      round (s, mk n size f, done)
      = Ok (s', mk n size (fun c i => if (done <=? i) && (i <? done + todo)
                                      then Y c (T + (i - done)) else f c i), done + todo) /\
      Inv (T + todo) s'.

  Lemma loop_steps : forall fuel T s size done f,
    size - done <= fuel -> done <= size -> Inv T s ->
    (forall c i, c < n -> done <= i < size -> f c i = x c (T + (i - done))) ->
    exists s' d, while_ fuel (fun st => snd st <? num_samples (snd (fst st))) round (s, mk n size f, done)
            = Ok (s', mk n size (fun c i => if done <=? i then Y c (T + (i - done)) else f c i), d) /\
      Inv (T + (size - done)) s'.
  Proof.
    induction fuel; intros T s size done f Hfuel Hds HT Hf.
    - assert (done = size) by lia. subst done. exists s, size. split.
      + rewrite while_end by (cbn [fst snd]; rewrite num_samples_mk by auto; apply Nat.ltb_irrefl).
        do 3 f_equal. apply mk_ext. intros. bcase; auto; lia.
      + now rewrite Nat.sub_diag, Nat.add_0_r.
    - destruct (Nat.eq_dec done size) as [->|Hne].
      { exists s, size. split.
        + rewrite while_end by (cbn [fst snd]; rewrite num_samples_mk by auto; apply Nat.ltb_irrefl).
          do 3 f_equal. apply mk_ext. intros. bcase; auto; lia.
        + now rewrite Nat.sub_diag, Nat.add_0_r. }
      destruct (round_ok T s size done f) as (s1 & todo & Htodo & E & HT1); auto; [lia|].
      erewrite while_step; [|cbn [fst snd]; rewrite num_samples_mk by auto; apply Nat.ltb_lt; lia|exact E].
      edestruct (IHfuel (T + todo) s1 size (done + todo)) as (s' & d & E' & HT'); [lia|lia|exact HT1| |].
      2:{ exists s', d. split.
          - etransitivity; [exact E'|]. do 3 f_equal. apply mk_ext. intros c i Hc Hi.
            bcase; try lia; auto; f_equal; lia.
          - replace (T + (size - done)) with (T + todo + (size - (done + todo))) by lia. exact HT'. }
      intros c i Hc Hi. cbv beta. bcase; try lia. rewrite Hf by lia. f_equal. lia.
  Qed.

  Lemma loop_ok T s m : Inv T s ->
    exists s' d, while_ m (fun st => snd st <? num_samples (snd (fst st))) round
                        (s, mk n m (fun c i => x c (T + i)), 0)
                 = Ok (s', mk n m (fun c i => Y c (T + i)), d) /\ Inv (T + m) s'.
  Proof.
    intros HT. destruct (loop_steps m T s m 0 (fun c i => x c (T + i))) as (s' & d & E & H); auto; try lia.
    { intros. f_equal. lia. }
    exists s', d. split.
    - rewrite E. do 3 f_equal. apply mk_ext. intros. cbn [Nat.leb]. now rewrite Nat.sub_0_r.
    - now rewrite Nat.sub_0_r in H.
  Qed.
End Loop.

Section NUPC.
  Context {A : arith} (L : arith_laws A) (R : rfft A) (HR : rfft_ok R).
  Let Sring := law_ring A L.
  Add Ring sring : Sring.
  Notation S := (sample A).

  (** one sub-convolver: 2^sd_s blocks per partition, sd_K partitions, its response *)
  Record sd : Type := { sd_s : nat; sd_K : nat; sd_h : nat -> nat -> S }.

  Variables (n b B k Ku : nat) (hu : nat -> nat -> S) (ds : list sd).
  Hypothesis (Hn : 0 < n) (HB : 0 < B) (HBb : ds = [] \/ B = 2 ^ b).
  Hypothesis (Hk : 0 < k) (HF : 2 * B <= 2 ^ k) (HKu : 0 < Ku).
  Hypothesis (Hds : forall d, In d ds -> 0 < sd_s d /\ 0 < sd_K d).

  Definition sd_P (d : sd) : nat := 2 ^ (sd_s d + b).
  (** what the sub-convolver contributes to the output at time [t]: its segment starts two
      partitions and one block into the response *)
  Definition term (x : nat -> nat -> S) (d : sd) (c t : nat) : S :=
    ago (fir (sd_K d * sd_P d) (sd_h d c) (x c)) t (2 * sd_P d + B).
  Fixpoint total (x : nat -> nat -> S) (l : list sd) (c t : nat) : S :=
    match l with [] => s0 | d :: l' => sadd (term x d c t) (total x l' c t) end.

  Definition sub_stream (x : nat -> nat -> S) (T : nat) (d : sd) (m : multi A) : Prop :=
    exists off nd p0, multi_stream b (sd_s d) n (sd_K d) (sd_h d) off nd p0 x T m.

  Lemma run_subs_ok x T sv head : B = 2 ^ b -> head < 2 * B ->
    (forall c i, c < n -> i < B -> sv c i = x c (T + i)) ->
    forall l ms pr r,
    (forall d, In d l -> 0 < sd_s d /\ 0 < sd_K d) -> Forall2 (sub_stream x T) l ms ->
    exists ms' pr', nupc_run_subs ms (repeat (2 * B) (length l)) (mk n B sv) (mk n B pr) (mk n (2 * B) r) head
      = Ok (ms', mk n B pr',
            mk n (2 * B) (fun c q => if rdist (2 * B) head q <? B
                                     then sadd (r c q) (total x l c (T + B + rdist (2 * B) head q))
                                     else r c q)) /\
      Forall2 (sub_stream x (T + B)) l ms'.
  Proof.
    intros EB Hh Hsv. induction l as [|d l IH]; intros ms pr r Hl HF2.
    - inversion HF2; subst ms. exists [], pr. split; [|constructor]. cbn [nupc_run_subs repeat length total].
      do 2 f_equal. apply mk_ext. intros c q _ _. destruct (_ <? _); auto. ring.
    - inversion HF2 as [|? m ? ms0 (off & nd & p0 & Hm) HF3]; subst.
      cbn [length repeat nupc_run_subs].
      rewrite whole_mk by auto. unfold blk_copy_from. rewrite blk_apply_mk by (cbn [v_start v_len]; lia).
      cbn [bind v_start v_len].
      match goal with |- context [multi_process m ?bl] =>
        replace bl with (mk n B (fun c i => x c (T + i))) end.
      2: { apply mk_ext. intros c i Hc Hi. rewrite Nat.min_id, Nat.add_0_l, Nat.sub_0_r. unfold f_copy.
           rewrite Hsv by auto. bcase; auto; lia. }
      destruct (Hl d (or_introl eq_refl)) as [Hs HK].
      destruct (multi_process_ok b (sd_s d) Hs L n (sd_K d) (sd_h d) off nd p0 x T m HK Hm) as (m' & Em & Hm').
      rewrite <- EB in Em, Hm'. rewrite Em. cbn [bind]. rewrite num_samples_mk by auto. rewrite cbuf_next_ok by lia. cbn [bind].
      replace ((head + 2 * B) mod (2 * B)) with head.
      2: { replace (head + 2 * B) with (head + 1 * (2 * B)) by lia.
           rewrite Nat.mod_add by lia. now rewrite Nat.mod_small. }
      unfold sb_add_from. rewrite ring_apply_mk by lia. cbn [bind].
      edestruct IH as (ms' & pr' & E & HF4); [intros; apply Hl; now right|exact HF3|].
      exists (m' :: ms'), pr'. split.
      + rewrite E. cbn [bind]. do 2 f_equal. apply mk_ext. intros c q Hc Hq. cbv beta.
        destruct (Nat.ltb_spec (rdist (2 * B) head q) B); auto. cbn [total].
        unfold term. rewrite (ago_eq _ (T + rdist (2 * B) head q) (2 * 2 ^ (sd_s d + b))
          (T + B + rdist (2 * B) head q) (2 * sd_P d + B)) by (unfold sd_P; lia).
        unfold sd_P. ring.
      + constructor; auto. red. eauto.
  Qed.

  Definition Y (x : nat -> nat -> S) (c t : nat) : S :=
    sadd (fir (Ku * B) (hu c) (x c) t) (total x ds c t).

  (** the state after [T = m B + col] samples of [x] *)
  Definition nst (x : nat -> nat -> S) (T : nat) (nu : nupc A) : Prop :=
    exists m col, T = m * B + col /\ col < B /\ n_block nu = B /\ n_collected nu = col /\
      at_rest_or_mid n B k Ku hu x T (n_upc nu) /\
      Forall2 (sub_stream x (m * B)) ds (n_tdupcs nu) /\
      n_delays nu = repeat (2 * B) (length ds) /\
      (ds <> [] ->
         (exists sv, n_saved nu = mk n B sv /\ forall c i, c < n -> i < col -> sv c i = x c (m * B + i)) /\
         (exists pr, n_proc nu = mk n B pr) /\ n_head nu < 2 * B /\
         exists r, n_ring nu = mk n (2 * B) r /\
           forall c j, c < n -> j < 2 * B ->
             r c ((n_head nu + j) mod (2 * B)) =
             if j <? B + col then s0 else total x ds c (m * B + (j - B))).

  Lemma nst_round x T nu size done f :
    nst x T nu -> done < size ->
    (forall c i, c < n -> done <= i < size -> f c i = x c (T + (i - done))) ->
    exists nu' todo, 0 < todo <= size - done /\
      nupc_round R (nu, mk n size f, done)
      = Ok (nu', mk n size (fun c i => if (done <=? i) && (i <? done + todo)
                                      then Y x c (T + (i - done)) else f c i), done + todo) /\
      nst x (T + todo) nu'.
  Proof.
    intros (m & col & ET & Hcol & E1 & E2 & Hu & HF2 & Ed & Hsubs) Hds1 Hf.
    set (todo := Nat.min (size - done) (B - col)).
    assert (Htodo : 0 < todo <= size - done) by lia. assert (HtP : col + todo <= B) by lia.
    unfold nupc_round. rewrite E1, E2. unfold usub at 1. destruct (Nat.leb_spec col B); [|lia]. cbn [bind].
    rewrite num_samples_mk by auto. fold todo.
    rewrite whole_mk, view_sub_ok by (auto; cbn [v_len]; lia). cbn [bind v_start].
    rewrite view_read_mk by (cbn [v_start v_len]; lia). cbn [bind v_start v_len].
    unfold umod. destruct (Nat.eqb_spec B 0); [lia|]. cbn [bind].
    set (sub := mk n todo (fun c i => f c (0 + done + i))).
    assert (Esub : sub = mk n todo (fun c i => x c (T + i))).
    { apply mk_ext. intros c i Hc Hi. rewrite Hf by lia. f_equal. lia. }
    destruct (upc_process_ok L R HR n B k Ku hu x Hn HB Hk HF HKu T (n_upc nu) todo Hu) as (u' & Eu & Hu').
    rewrite <- Esub in Eu.
    (* the block written back *)
    assert (Hout : forall g, (forall c i, c < n -> i < todo -> g c i = Y x c (T + i)) ->
      blk_copy_from {| v_start := 0 + done; v_len := todo |} (mk n size f) (mk n todo g)
      = Ok (mk n size (fun c i => if (done <=? i) && (i <? done + todo) then Y x c (T + (i - done)) else f c i))).
    { intros g Hg. unfold blk_copy_from. rewrite blk_apply_mk by (cbn [v_start v_len]; lia).
      cbn [v_start v_len]. f_equal. apply mk_ext. intros c i Hc Hi. rewrite Nat.min_id, !Nat.add_0_l.
      destruct ((done <=? i) && (i <? done + todo)) eqn:Ei; auto.
      apply andb_true_iff in Ei as [Ei1 Ei2]. apply Nat.leb_le in Ei1. apply Nat.ltb_lt in Ei2.
      unfold f_copy. apply Hg; auto; lia. }
    assert (Dds : ds = [] \/ ds <> []) by (destruct ds; [left|right]; congruence).
    destruct Dds as [Eds|Eds].
    { (* no sub-convolvers *)
      assert (Et : n_tdupcs nu = []) by (rewrite Eds in HF2; now inversion HF2).
      rewrite Et. cbn [length Nat.ltb Nat.leb bind].
      rewrite Eu. cbn [bind]. rewrite Hout by (intros; unfold Y; rewrite Eds; cbn [total]; ring). cbn [bind].
      eexists. exists todo. split; [auto|]. split; [reflexivity|].
      destruct (Nat.eq_dec (col + todo) B) as [Efull|Npart].
      - exists (m + 1), 0. cbn [n_block n_collected n_upc n_tdupcs n_delays]. rewrite Efull, Nat.mod_same by lia.
        do 4 (split; [lia|]). split; [exact Hu'|]. split; [rewrite Eds; constructor|]. split; [auto|]. congruence.
      - exists m, (col + todo). cbn [n_block n_collected n_upc n_tdupcs n_delays].
        rewrite Nat.mod_small by lia.
        do 4 (split; [lia|]). split; [exact Hu'|]. split; [rewrite Eds; constructor|]. split; [auto|]. congruence. }
    destruct HBb as [|EB]; [congruence|].
    destruct Hsubs as ((sv & Esv & Hsv) & (pr & Epr) & Hhead & (r & Er & Hr)); [congruence|].
    assert (Hlen : 0 < length (n_tdupcs nu)).
    { inversion HF2; [congruence|cbn; lia]. }
    destruct (Nat.ltb_spec 0 (length (n_tdupcs nu))) as [_|]; [|lia].
    rewrite Esv, whole_mk by auto. rewrite num_samples_mk by auto.
    rewrite view_sub_ok by (cbn [v_len]; lia). cbn [bind v_start].
    unfold sub at 1. unfold blk_copy_from at 1. rewrite blk_apply_mk by (cbn [v_start v_len]; lia).
    cbn [bind v_start v_len].
    set (sv' := fun c i => if (0 + col <=? i) && (i <? 0 + col + Nat.min (B - col) todo)
                           then f_copy (sv c i) (f c (0 + done + (i - (0 + col)))) else sv c i).
    assert (Hsv' : forall c i, c < n -> i < col + todo -> sv' c i = x c (m * B + i)).
    { intros c i Hc Hi. unfold sv'. rewrite !Nat.add_0_l. rewrite (Nat.min_r _ todo) by lia.
      destruct (Nat.ltb_spec i col).
      - bcase; try lia. auto.
      - bcase; try lia. unfold f_copy. rewrite Hf by lia. f_equal. lia. }
    fold sv'.
    set (p := (n_head nu + (B + col)) mod (2 * B)).
    assert (Hp : p < 2 * B) by (apply Nat.mod_upper_bound; lia).
    destruct (Nat.eq_dec (col + todo) B) as [Efull|Npart].
    - (* the block is complete *)
      rewrite Efull, Nat.mod_same by lia. cbn [Nat.eqb].
      destruct (run_subs_ok x (m * B) sv' (n_head nu) EB Hhead) with (l := ds) (ms := n_tdupcs nu) (pr := pr) (r := r)
        as (ms' & pr' & Ers & HF3); auto.
      { intros c i Hc Hi. apply Hsv'; auto. lia. }
      rewrite Ed, Epr, Er.
      set (r1 := fun c q => if rdist (2 * B) (n_head nu) q <? B
                            then sadd (r c q) (total x ds c (m * B + B + rdist (2 * B) (n_head nu) q))
                            else r c q) in *.
      rewrite Ers. cbn [bind]. rewrite num_samples_mk by auto. rewrite cbuf_next_ok by lia. cbn [bind].
      rewrite Eu. cbn [bind]. rewrite num_samples_mk by auto. rewrite cbuf_next_ok by lia. cbn [bind].
      replace (((n_head nu + B) mod (2 * B) + (col + 0)) mod (2 * B)) with p.
      2: { rewrite Nat.add_mod_idemp_l by lia. unfold p. f_equal. lia. }
      assert (Hr1 : forall c j, c < n -> j < 2 * B ->
                r1 c ((n_head nu + j) mod (2 * B)) =
                if j <? B then total x ds c (m * B + B + j)
                else if j <? B + col then s0 else total x ds c (m * B + (j - B))).
      { intros c j Hc Hj. unfold r1.
        pose proof (rdist_mod (2 * B) (n_head nu) j ltac:(lia) Hj) as Erd.
        rewrite (Nat.mod_small (n_head nu)) in Erd by auto. rewrite Erd, Hr by auto.
        bcase; try lia; auto. ring. }
      set (fo := fun c i => fir (Ku * B) (hu c) (x c) (T + i)).
      destruct (ring_sub_mk (@sadd A) (2 * B) p todo n r1 fo) as (t & Et1 & Et2 & Et3); [lia..|].
      rewrite Et1. cbn [bind]. unfold sb_add_to.
      match goal with |- context [sb_apply_to sadd t ?ra ?rb] =>
        change (sb_apply_to sadd t ra rb) with (sb_apply_to sadd t (mk n (2 * B) r1) (mk n todo fo)) end.
      rewrite Et2. cbn [bind]. rewrite Et3. cbn [bind].
      rewrite Hout.
      2: { intros c i Hc Hi. unfold Y, fo, p. f_equal. rewrite Nat.add_mod_idemp_l by lia.
           replace (n_head nu + (B + col) + i) with (n_head nu + (B + col + i)) by lia.
           rewrite Hr1 by lia. bcase; try lia. f_equal. lia. }
      cbn [bind]. eexists. exists todo. split; [auto|]. split; [reflexivity|].
      exists (m + 1), 0. cbn [n_block n_collected n_upc n_tdupcs n_delays n_saved n_proc n_head n_ring].
      do 4 (split; [lia|]). split; [exact Hu'|]. split.
      { replace ((m + 1) * B) with (m * B + B) by lia. exact HF3. }
      split; [auto|]. intros _. split; [eexists; split; [reflexivity|lia]|]. split; [eauto|].
      split; [apply Nat.mod_upper_bound; lia|].
      eexists. split; [reflexivity|]. intros c j Hc Hj. cbv beta.
      rewrite Nat.add_mod_idemp_l by lia. rewrite Nat.add_0_r.
      destruct (Nat.ltb_spec j B).
      + destruct (Nat.lt_ge_cases j col).
        * replace ((n_head nu + B + j) mod (2 * B)) with ((n_head nu + (B + col) + (2 * B - col + j)) mod (2 * B)).
          2: { replace (n_head nu + (B + col) + (2 * B - col + j)) with (n_head nu + B + j + 1 * (2 * B)) by lia.
               apply Nat.mod_add. lia. }
          unfold p. rewrite rdist_mod by lia. destruct (Nat.ltb_spec (2 * B - col + j) todo); [lia|].
          replace (n_head nu + (B + col) + (2 * B - col + j)) with (n_head nu + (B + j) + 1 * (2 * B)) by lia.
          rewrite Nat.mod_add by lia. rewrite Hr1 by lia. bcase; try lia. reflexivity.
        * replace (n_head nu + B + j) with (n_head nu + (B + col) + (j - col)) by lia.
          unfold p. rewrite rdist_mod by lia. destruct (Nat.ltb_spec (j - col) todo); [|lia]. reflexivity.
      + replace ((n_head nu + B + j) mod (2 * B)) with ((n_head nu + (j - B)) mod (2 * B)).
        2: { replace (n_head nu + B + j) with (n_head nu + (j - B) + 1 * (2 * B)) by lia. now rewrite Nat.mod_add by lia. }
        assert (Erd : rdist (2 * B) p ((n_head nu + (j - B)) mod (2 * B)) = j - col).
        { replace ((n_head nu + (j - B)) mod (2 * B)) with ((n_head nu + (B + col) + (j - col)) mod (2 * B)).
          2: { replace (n_head nu + (B + col) + (j - col)) with (n_head nu + (j - B) + 1 * (2 * B)) by lia.
               now rewrite Nat.mod_add by lia. }
          apply rdist_mod; lia. }
        rewrite Erd. destruct (Nat.ltb_spec (j - col) todo); [lia|]. rewrite Hr1 by lia.
        bcase; try lia. f_equal. lia.
    - rewrite (Nat.mod_small (col + todo)) by lia. destruct (Nat.eqb_spec (col + todo) 0); [lia|]. cbn [bind].
      rewrite Eu. cbn [bind]. rewrite Er, num_samples_mk by auto. rewrite cbuf_next_ok by lia. cbn [bind].
      replace ((n_head nu + (col + B)) mod (2 * B)) with p by (unfold p; f_equal; lia).
      set (fo := fun c i => fir (Ku * B) (hu c) (x c) (T + i)).
      destruct (ring_sub_mk (@sadd A) (2 * B) p todo n r fo) as (t & Et1 & Et2 & Et3); [lia..|].
      rewrite Et1. cbn [bind]. unfold sb_add_to.
      match goal with |- context [sb_apply_to sadd t ?ra ?rb] =>
        change (sb_apply_to sadd t ra rb) with (sb_apply_to sadd t (mk n (2 * B) r) (mk n todo fo)) end.
      rewrite Et2. cbn [bind]. rewrite Et3. cbn [bind].
      rewrite Hout.
      2: { intros c i Hc Hi. unfold Y, fo, p. f_equal. rewrite Nat.add_mod_idemp_l by lia.
           replace (n_head nu + (B + col) + i) with (n_head nu + (B + col + i)) by lia.
           rewrite Hr by lia. bcase; try lia. f_equal. lia. }
      cbn [bind]. eexists. exists todo. split; [auto|]. split; [reflexivity|].
      exists m, (col + todo). cbn [n_block n_collected n_upc n_tdupcs n_delays n_saved n_proc n_head n_ring].
      do 4 (split; [lia|]). split; [exact Hu'|]. split; [exact HF2|].
      split; [auto|]. intros _. split; [eexists; split; [reflexivity|exact Hsv']|]. split; [eauto|].
      split; [auto|].
      eexists. split; [reflexivity|]. intros c j Hc Hj. cbv beta.
      destruct (Nat.lt_ge_cases j (B + col)) as [Hlo|Hhi].
      + assert (Erd : rdist (2 * B) p ((n_head nu + j) mod (2 * B)) = B - col + j).
        { replace ((n_head nu + j) mod (2 * B)) with ((n_head nu + (B + col) + (B - col + j)) mod (2 * B)).
          2: { replace (n_head nu + (B + col) + (B - col + j)) with (n_head nu + j + 1 * (2 * B)) by lia.
               now rewrite Nat.mod_add by lia. }
          apply rdist_mod; lia. }
        rewrite Erd. destruct (Nat.ltb_spec (B - col + j) todo); [lia|]. rewrite Hr by auto.
        bcase; auto; lia.
      + assert (Erd : rdist (2 * B) p ((n_head nu + j) mod (2 * B)) = j - (B + col)).
        { replace (n_head nu + j) with (n_head nu + (B + col) + (j - (B + col))) by lia. apply rdist_mod; lia. }
        rewrite Erd, Hr by auto. bcase; try lia; auto.
  Qed.

  Lemma nupc_process_ok x T nu m : nst x T nu ->
    exists nu', nupc_process R nu (mk n m (fun c i => x c (T + i)))
                = Ok (nu', mk n m (fun c i => Y x c (T + i))) /\ nst x (T + m) nu'.
  Proof.
    intros HT. unfold nupc_process. rewrite num_samples_mk by auto.
    destruct (loop_ok n Hn (nupc_round R) (nst x) x (Y x)) with (T := T) (s := nu) (m := m)
      as (nu' & d & E & H); auto.
    { intros. now apply nst_round. }
    exists nu'. split; auto. eapply bind_eq; [exact E|]. reflexivity.
  Qed.

  Lemma nupc_reset_ok x T nu x' : nst x T nu -> nst x' 0 (nupc_reset nu).
  Proof.
    intros (m & col & ET & Hcol & E1 & E2 & Hu & HF2 & Ed & Hsubs).
    exists 0, 0. unfold nupc_reset. cbn [n_block n_collected n_upc n_tdupcs n_delays n_saved n_proc n_head n_ring].
    do 4 (split; [lia|]). split.
    { left. exists 0. split; [reflexivity|]. eapply upc_reset_ok; eauto. }
    split.
    { assert (G : forall l ms, (forall d, In d l -> 0 < sd_s d /\ 0 < sd_K d) ->
        Forall2 (sub_stream x (m * B)) l ms -> Forall2 (sub_stream x' 0) l (map multi_reset ms)).
      { intros l ms Hl HF3. induction HF3 as [|d mu l ms (off & nd & p0 & Hm) HF3 IH]; cbn [map]; constructor.
        - destruct (Hl d (or_introl eq_refl)) as [Hs HK]. red. do 3 eexists. eapply (multi_reset_ok (laws_zero A L)); eauto.
        - apply IH. intros; apply Hl. now right. }
      now apply G. }
    split; [auto|]. intros H. destruct (Hsubs H) as ((sv & Esv & Hsv) & (pr & Epr) & Hhead & (r & Er & Hr)).
    rewrite Esv, Epr, Er, !audio_clear_mk.
    split; [eexists; split; [reflexivity|lia]|]. split; [eauto|]. split; [auto|].
    eexists. split; [reflexivity|]. intros c j Hc Hj. cbv beta. bcase; auto.
    assert (G : forall l, s0 = total x' l c (0 * B + (j - B))).
    { induction l as [|d l IH]; cbn [total]; auto. rewrite <- IH. unfold term. rewrite ago_before by lia. ring. }
    apply G.
  Qed.
End NUPC.

(** ** construction *)
Lemma tables_pow2 B r : find_results kGarciaResults B = Some r -> exists b, B = Z.of_nat (2 ^ b).
Proof.
  intros H. apply find_results_in in H.
  assert (HT : forallb (fun e => pow2b (fst e)) kGarciaResults = true) by (vm_compute; reflexivity).
  rewrite forallb_forall in HT. specialize (HT _ H). cbn [fst] in HT.
  destruct (pow2b_ok _ HT) as (e & He & ->). exists (Z.to_nat e).
  rewrite Nat2Z.inj_pow, Z2Nat.id by lia. reflexivity.
Qed.

(** each segment starts two partitions and one block into the response *)
Fixpoint cover (B m off : nat) (l : list layout) : Prop :=
  match l with
  | [] => m <= off
  | a :: t => off < m /\ exists s num, 0 < s /\ 0 < num /\ pl_size a = Z.of_nat (2 ^ s) /\ pl_num a = Z.of_nat num /\
                off = 2 * (2 ^ s * B) + B /\ cover B m (off + 2 ^ s * num * B) t
  end.

Lemma good_cover B m a : (0 <= pl_size a * pl_num a)%Z -> forall t pre,
  (forall p b post, pre ++ t = p ++ b :: post ->
     pow2_blocks (pl_size b) /\ (0 < pl_num b)%Z /\
     layout_samples (Z.of_nat B) (a :: p) = (2 * pl_size b * Z.of_nat B + Z.of_nat B)%Z /\
     (layout_samples (Z.of_nat B) (a :: p) < Z.of_nat m)%Z) ->
  (Z.of_nat m <= layout_samples (Z.of_nat B) (a :: pre ++ t))%Z ->
  cover B m (Z.to_nat (layout_samples (Z.of_nat B) (a :: pre))) t.
Proof.
  intros Ha. induction t as [|c t IH]; intros pre H Hm.
  - rewrite app_nil_r in Hm. cbn [cover]. lia.
  - destruct (H pre c t eq_refl) as ((e & He & Hpow) & Hnum & Hs1 & Hs2). cbn [cover].
    split; [lia|]. exists (Z.to_nat e), (Z.to_nat (pl_num c)).
    assert (Ez : pl_size c = Z.of_nat (2 ^ Z.to_nat e)).
    { rewrite Nat2Z.inj_pow, Z2Nat.id by lia. exact Hpow. }
    split; [lia|]. split; [lia|]. split; [exact Ez|]. split; [lia|]. split; [nia|].
    replace (Z.to_nat (layout_samples (Z.of_nat B) (a :: pre)) + 2 ^ Z.to_nat e * Z.to_nat (pl_num c) * B)
      with (Z.to_nat (layout_samples (Z.of_nat B) (a :: (pre ++ [c])))).
    + apply IH.
      * intros p b post E. rewrite <- app_assoc in E. apply (H p b post). exact E.
      * rewrite <- app_assoc. exact Hm.
    + rewrite app_comm_cons, layout_samples_app. cbn [layout_samples]. cbn [layout_samples] in Hs1. nia.
Qed.

Section Make.
  Context {A : arith} (L : arith_laws A) (R : rfft A) (HR : rfft_ok R).
  Let Sring := law_ring A L.
  Add Ring sring2 : Sring.
  Notation S := (sample A).
  Variables (n m : nat) (ir : audio A).
  Hypothesis (Hn : 0 < n) (Hl : 0 < length ir) (Hsh : shaped (length ir) m ir).
  Hypothesis (Hm : 0 < m) (H24 : (Z.of_nat m <= 2 ^ 24)%Z).

  Definition seg (off len : nat) : audio A :=
    mk (length ir) len (fun c j => nth (off + j) (nth c ir []) s0).
  Lemma ir_mk : ir = mk (length ir) m (fun c j => nth j (nth c ir []) s0).
  Proof. now apply shaped_eq. Qed.
  Lemma ir_samples : num_samples ir = m.
  Proof. rewrite ir_mk. now apply num_samples_mk. Qed.
  Lemma ir_seg off len : off < m -> off + len <= m -> blk_sub ir off len = Ok (seg off len).
  Proof. intros. rewrite ir_mk at 1. now rewrite blk_sub_mk. Qed.
  Lemma seg_fun off len c j : ir_fun (seg off len) c j = if j <? len then ir_fun ir c (off + j) else s0.
  Proof.
    unfold ir_fun, seg. rewrite mk_length. rewrite mk_nth by (apply Nat.mod_upper_bound; lia).
    bcase.
    - now rewrite tab_nth.
    - rewrite nth_overflow; auto. rewrite tab_length. lia.
  Qed.

  Lemma subs_make_ok b : forall l off, cover (2 ^ b) m off l ->
    exists ds ms, nupc_subs n (2 ^ b) ir off l = Ok (ms, repeat (2 * 2 ^ b) (length ds)) /\
      length ms = length ds /\
      (forall d, In d ds -> 0 < sd_s d /\ 0 < @sd_K A d) /\
      (forall x, Forall2 (sub_stream n b x 0) ds ms) /\
      forall x c t, total b (2 ^ b) x ds c t
        = ssum (m - off) (fun j => smul (ir_fun ir c (off + j)) (ago (x c) t (off + j))).
  Proof.
    pose proof (pow2_pos b) as HB.
    induction l as [|a l IH]; intros off Hc; cbn [cover] in Hc.
    - exists [], []. split; [reflexivity|]. split; [reflexivity|]. split; [intros d []|]. split; [constructor|].
      intros x c t. replace (m - off) with 0 by lia. reflexivity.
    - destruct Hc as (Hoff & s & num & Hs & Hnum & Ea & En & Eoff & Hc).
      pose proof (pow2_pos s) as Hs2.
      set (size := 2 ^ s * num * 2 ^ b) in *.
      assert (Hsize : 0 < size) by (unfold size; nia).
      destruct (IH _ Hc) as (ds & ms & E & Hlen & Hds & HF & Htot).
      set (len := Nat.min size (m - off)).
      destruct (multi_make_ok (laws_zero A L) b s Hs n (seg off len) len) as (K & mu & HK & (HKm & _) & Emu & Hst & _).
      { unfold seg. now rewrite mk_length. }
      { unfold seg. rewrite mk_length. apply shaped_mk. }
      { lia. } { lia. }
      exists ({| sd_s := s; sd_K := K; sd_h := ir_fun (seg off len) |} :: ds), (mu :: ms).
      split.
      { cbn [nupc_subs length repeat]. unfold pl_samples. rewrite Ea, En.
        unfold nat_of. destruct (Z.ltb_spec (Z.of_nat (2 ^ s) * Z.of_nat num * Z.of_nat (2 ^ b)) 0); [lia|]. cbn [bind].
        destruct (Z.ltb_spec (Z.of_nat (2 ^ s)) 0); [lia|]. cbn [bind].
        rewrite <- !Nat2Z.inj_mul, !Nat2Z.id. fold size.
        rewrite ir_samples. unfold usub at 1. destruct (Nat.leb_spec off m); [|lia]. cbn [bind].
        fold len. rewrite ir_seg by lia. cbn [bind]. rewrite Emu. cbn [bind].
        unfold usub. destruct (Nat.leb_spec (2 * (2 ^ s * 2 ^ b)) (off + 2 ^ b)); [|lia]. cbn [bind].
        rewrite E. cbn [bind]. do 3 f_equal. lia. }
      split; [cbn; lia|]. split.
      { intros d [<-|Hd]; auto. }
      split.
      { intros x. constructor; auto. red. cbn [sd_s sd_K sd_h]. do 3 eexists. apply Hst. }
      intros x c t. cbn [total]. rewrite Htot. unfold term. cbn [sd_s sd_K sd_h]. unfold sd_P. cbn [sd_s].
      rewrite (ago_fir L). rewrite Nat.pow_add_r in *.
      rewrite (ssum_extend L len); [|lia|].
      + replace (m - off) with (len + (m - (off + size))) by lia. rewrite (ssum_app L). f_equal.
        * apply ssum_ext. intros j Hj. rewrite seg_fun. destruct (Nat.ltb_spec j len); [|lia].
          now rewrite <- Eoff.
        * apply ssum_ext. intros j Hj. replace (off + (len + j)) with (off + size + j) by lia. reflexivity.
      + intros j Hj. rewrite seg_fun. destruct (Nat.ltb_spec j len); [lia|]. ring.
  Qed.

  Lemma last_repeat {X} (v d : X) k : 0 < k -> last (repeat v k) d = v.
  Proof.
    induction k as [|k IH]; intros H; [lia|]. destruct k; [reflexivity|]. cbn [repeat last] in *. apply IH. lia.
  Qed.

  Lemma nupc_make_from_layout B b a l :
    0 < B -> (l = [] \/ B = 2 ^ b) -> pl_size a = 1%Z -> (0 < pl_num a)%Z ->
    GetPartitionScheme kGarciaResults (Z.of_nat B) (Z.of_nat m) = Ok (a :: l) ->
    cover B m (Nat.min (Z.to_nat (pl_num a) * B) m) l ->
    exists nu k Ku hu ds, nupc_make R ir n B = Ok nu /\ (ds = [] \/ B = 2 ^ b) /\
      0 < k /\ 2 * B <= 2 ^ k /\ 0 < Ku /\ (forall d, In d ds -> 0 < sd_s d /\ 0 < sd_K d) /\
      (forall x, nst n b B k Ku hu ds x 0 nu) /\
      forall x c t, Y b B Ku hu ds x c t = fir m (ir_fun ir c) (x c) t.
  Proof.
    intros HB HBb Ea En Es Hcov. unfold nupc_make.
    rewrite ir_samples, assert_true by (now apply Nat.ltb_lt). cbn [bind]. rewrite Es. cbn [bind].
    unfold pl_samples. rewrite Ea. unfold nat_of at 1.
    destruct (Z.ltb_spec (1 * pl_num a * Z.of_nat B) 0); [nia|]. cbn [bind].
    replace (Z.to_nat (1 * pl_num a * Z.of_nat B)) with (Z.to_nat (pl_num a) * B).
    2: { rewrite Z.mul_1_l, Z2Nat.inj_mul, Nat2Z.id by lia. reflexivity. }
    set (off := Nat.min (Z.to_nat (pl_num a) * B) m) in *.
    assert (Hoff : 0 < off <= m) by nia.
    rewrite ir_seg by lia. cbn [bind].
    destruct (upc_make_ok L R HR n B (seg 0 off) off) as (k & Ku & u & Hk & HF & HKu & HKm & Eu & Hrest); auto.
    { unfold seg. now rewrite mk_length. }
    { unfold seg. rewrite mk_length. apply shaped_mk. }
    { lia. } { lia. }
    rewrite Eu. cbn [bind].
    assert (HS : exists ds ms, nupc_subs n B ir off l = Ok (ms, repeat (2 * B) (length ds)) /\
      length ms = length ds /\ (ds = [] \/ B = 2 ^ b) /\
      (forall d, In d ds -> 0 < sd_s d /\ 0 < @sd_K A d) /\
      (forall x, Forall2 (sub_stream n b x 0) ds ms) /\
      forall x c t, total b B x ds c t
        = ssum (m - off) (fun j => smul (ir_fun ir c (off + j)) (ago (x c) t (off + j)))).
    { destruct HBb as [-> | ->].
      - exists [], []. cbn [cover] in Hcov. split; [reflexivity|]. split; [reflexivity|]. split; [auto|].
        split; [intros d []|]. split; [constructor|]. intros x c t. replace (m - off) with 0 by lia. reflexivity.
      - destruct (subs_make_ok b l off Hcov) as (ds & ms & H1 & H2 & H3 & H4 & H5). exists ds, ms.
        split; [exact H1|]. split; [exact H2|]. split; [now right|]. auto. }
    destruct HS as (ds & ms & ES & Hlen & HBd & Hds & HF2 & Htot).
    rewrite ES. cbn [bind].
    eexists. exists k, Ku, (ir_fun (seg 0 off)), ds.
    split; [reflexivity|]. split; [exact HBd|]. do 3 (split; [assumption|]). split; [assumption|]. split.
    - intros x. eapply nupc_reset_ok with (x := x) (T := 0); auto.
      exists 0, 0. cbn [n_block n_collected n_upc n_tdupcs n_delays n_saved n_proc n_head n_ring].
      do 4 (split; [lia|]). split; [left; exists 0; split; [reflexivity|apply Hrest]|].
      split; [apply HF2|]. split; [reflexivity|]. intros Hne.
      destruct ms as [|m0 ms0]; [destruct ds; [congruence|discriminate]|].
      rewrite last_repeat by (rewrite <- Hlen; cbn; lia). rewrite !zeros_mk.
      split; [eexists; split; [reflexivity|lia]|]. split; [eauto|]. split; [lia|].
      eexists. split; [reflexivity|]. intros c j Hc Hj. cbv beta. bcase; auto.
      assert (G : forall l, s0 = total b B x l c (0 * B + (j - B))).
      { induction l0 as [|d l0 IH]; cbn [total]; auto. rewrite <- IH. unfold term. rewrite ago_before by lia. ring. }
      apply G.
    - intros x c t. unfold Y. rewrite Htot. unfold fir.
      rewrite (ssum_extend L off); [|lia|].
      + replace m with (off + (m - off)) at 2 by lia. rewrite (ssum_app L). f_equal.
        apply ssum_ext. intros j Hj. rewrite seg_fun. destruct (Nat.ltb_spec j off); [|lia]. reflexivity.
      + intros j Hj. rewrite seg_fun. destruct (Nat.ltb_spec j off); [lia|]. ring.
  Qed.

  Lemma nupc_make_ok B : 0 < B ->
    exists nu b k Ku hu ds, nupc_make R ir n B = Ok nu /\ (ds = [] \/ B = 2 ^ b) /\
      0 < k /\ 2 * B <= 2 ^ k /\ 0 < Ku /\ (forall d, In d ds -> 0 < sd_s d /\ 0 < sd_K d) /\
      (forall x, nst n b B k Ku hu ds x 0 nu) /\
      forall x c t, Y b B Ku hu ds x c t = fir m (ir_fun ir c) (x c) t.
  Proof.
    intros HB. destruct (find_results kGarciaResults (Z.of_nat B)) as [results|] eqn:Ef.
    - destruct (tables_pow2 _ _ Ef) as (b & Eb). apply Nat2Z.inj in Eb.
      destruct (scheme_good _ (Z.of_nat m) _ Ef) as (l & E & a & t & -> & G1 & G2 & G3 & G4); [lia|].
      destruct (nupc_make_from_layout B b a t) as (nu & G); [assumption|now right|assumption|lia|assumption| |exists nu, b; exact G].
      assert (Hc : cover B m (Z.to_nat (layout_samples (Z.of_nat B) [a])) t).
      { apply (good_cover B m a) with (pre := []); [nia| |cbn [app]; lia].
        intros p c post Ep. cbn [app] in Ep. destruct (G3 p c post Ep) as (P1 & P2 & P3 & P4). auto. }
      cbn [layout_samples] in Hc. rewrite G1 in Hc.
      replace (Z.to_nat (1 * pl_num a * Z.of_nat B + 0)) with (Z.to_nat (pl_num a) * B) in Hc.
      2: { rewrite Z.add_0_r, Z.mul_1_l, Z2Nat.inj_mul, Nat2Z.id by lia. reflexivity. }
      destruct t as [|c t]; cbn [cover] in Hc |- *.
      + lia.
      + rewrite Nat.min_l by lia. exact Hc.
    - set (a := {| pl_size := 1; pl_num := zceil (Z.of_nat m) (Z.of_nat B) |}).
      pose proof (zceil_spec (Z.of_nat m) (Z.of_nat B) ltac:(lia)) as HZ.
      destruct (nupc_make_from_layout B 0 a []) as (nu & G); [assumption|now left|reflexivity| | | |exists nu, 0; exact G].
      + unfold a. cbn [pl_num]. nia.
      + unfold GetPartitionScheme. rewrite Ef, num_partitions_exact by lia. reflexivity.
      + unfold a. cbn [cover pl_num]. nia.
  Qed.
End Make.
