(** * Complex buffers, stage buffers and the frequency delay line *)
From Verif.Model Require Import Base Arith Juce ComplexBuffer DecompositionSchedule
     FrequencyDelayLine.
From Verif.Proofs Require Import Lists FFTProof Blocks.

Section Delay.
  Context {A : arith}.
  Notation C := (cplx A).

  (** ** complex buffers *)
  Definition cmk (n m : nat) (f : nat -> nat -> C) : cbuf A :=
    {| cb_points := m; cb_data := mk n m f |}.
  Definition cshaped (n m : nat) (b : cbuf A) : Prop := cb_points b = m /\ shaped n m (cb_data b).

  Lemma cshaped_cmk n m f : cshaped n m (cmk n m f).
  Proof. split; [reflexivity|apply shaped_mk]. Qed.
  Lemma cshaped_eq n m b : cshaped n m b -> b = cmk n m (fun c i => nth i (nth c (cb_data b) []) c0).
  Proof.
    intros [H1 H2]. destruct b as [p d]. cbn in *. subst p. unfold cmk. f_equal.
    now apply shaped_eq.
  Qed.
  Lemma cmk_ext n m f g : (forall c i, c < n -> i < m -> f c i = g c i) -> cmk n m f = cmk n m g.
  Proof. intros. unfold cmk. f_equal. now apply mk_ext. Qed.
  Lemma cmk_inv n m f g : cmk n m f = cmk n m g -> forall c i, c < n -> i < m -> f c i = g c i.
  Proof. intros H. apply mk_inv. exact (f_equal cb_data H). Qed.

  Lemma cb_make_cmk m n : cb_make m n = cmk n m (fun _ _ => c0).
  Proof.
    unfold cb_make, cmk, mk. f_equal. rewrite repeat_tab. apply tab_ext. intros. apply repeat_tab.
  Qed.
  Lemma cb_clear_cmk n m f : cb_clear (cmk n m f) = cmk n m (fun _ _ => c0).
  Proof. unfold cb_clear, cmk. cbn [cb_points cb_data]. now rewrite mk_map. Qed.
  Lemma cb_clear_shaped n m b : cshaped n m b -> cb_clear b = cmk n m (fun _ _ => c0).
  Proof. intros H. rewrite (cshaped_eq _ _ _ H). apply cb_clear_cmk. Qed.
  Lemma cb_num_channels_cmk n m f : cb_num_channels (cmk n m f) = n.
  Proof. apply mk_length. Qed.

  Lemma same_dims_cmk n m f g : cb_same_dims (cmk n m f) (cmk n m g) = true.
  Proof. unfold cb_same_dims. rewrite !cb_num_channels_cmk. cbn. now rewrite !Nat.eqb_refl. Qed.

  Lemma cb_multiply_cmk n m f g h :
    cb_multiply_from (cmk n m f) (cmk n m g) (cmk n m h)
    = Ok (cmk n m (fun c i => cmul (g c i) (h c i))).
  Proof.
    unfold cb_multiply_from. rewrite !same_dims_cmk. cbn [andb assert bind].
    unfold cmk. cbn [cb_points cb_data]. now rewrite zipw_mk.
  Qed.
  Lemma cb_add_cmk n m f g :
    cb_add_from (cmk n m f) (cmk n m g) = Ok (cmk n m (fun c i => cadd (f c i) (g c i))).
  Proof.
    unfold cb_add_from. rewrite !same_dims_cmk. cbn [andb assert bind].
    unfold cmk. cbn [cb_points cb_data]. now rewrite zipw_mk.
  Qed.
  Lemma cb_mac_cmk n m f g h :
    cb_multiply_accumulate_from (cmk n m f) (cmk n m g) (cmk n m h)
    = Ok (cmk n m (fun c i => cadd (f c i) (cmul (g c i) (h c i)))).
  Proof.
    unfold cb_multiply_accumulate_from. rewrite !same_dims_cmk. cbn [andb assert bind].
    unfold cmk. cbn [cb_points cb_data]. now rewrite !zipw_mk.
  Qed.

  Lemma cb_read_cmk n m f c : c < n -> cb_read (cmk n m f) c = Ok (tab m (f c)).
  Proof. intros. unfold cb_read, cmk. cbn [cb_data]. unfold mk. now rewrite get_tab. Qed.

  Lemma cb_write_cmk n m f c g :
    c < n -> cb_write (cmk n m f) c (tab m g)
             = Ok (cmk n m (fun k i => if k =? c then g i else f k i)).
  Proof.
    intros H. unfold cb_write, cmk. cbn [cb_data cb_points]. unfold mk. rewrite set_tab by auto.
    cbn [bind]. do 2 f_equal. apply tab_ext. intros k Hk. now destruct (k =? c).
  Qed.

  Lemma cb_copy_cmk n m f k (h : nat -> nat -> sample A) :
    0 < n ->
    cb_copy_from_audio_block (cmk n m f) (mk n k h)
    = Ok (cmk n m (fun c i => if i <? Nat.min m k then creal (h c i) else f c i)).
  Proof.
    intros Hn. unfold cb_copy_from_audio_block.
    rewrite cb_num_channels_cmk, mk_length, Nat.eqb_refl. cbn [assert bind].
    rewrite num_samples_mk by auto. cbn [cb_points cmk]. fold (cmk n m f).
    set (q := Nat.min m k).
    match goal with |- for_n n ?bd _ = _ =>
      pose proof (for_n_seq (fun j => cmk n m (fun c i =>
               if (c <? j) && (i <? q) then creal (h c i) else f c i)) bd n) as E0 end.
    cbv beta in E0. etransitivity; [etransitivity; [|apply E0]|]; clear E0.
    - f_equal.
    - intros c Hc.
      match goal with |- for_n q ?bd _ = _ =>
        pose proof (for_n_seq (fun j => cmk n m (fun c' i =>
          if (c' <? c) && (i <? q) then creal (h c' i)
          else if (c' =? c) && (i <? j) then creal (h c' i) else f c' i)) bd q) as E end.
      cbv beta in E.
      etransitivity; [etransitivity; [|apply E]|].
      + f_equal. apply cmk_ext. intros. bcase; auto; lia.
      + intros p Hp. unfold mk at 1. rewrite get_tab by auto. cbn [bind].
        rewrite get_tab by (unfold q in *; lia). cbn [bind].
        rewrite cb_read_cmk by auto. cbn [bind]. rewrite set_tab by (unfold q in *; lia).
        cbn [bind]. rewrite cb_write_cmk by auto. f_equal. apply cmk_ext. intros c' i Hc' Hi.
        bcase; subst; auto; lia.
      + f_equal. apply cmk_ext. intros. bcase; subst; auto; lia.
    - f_equal. apply cmk_ext. intros c i Hc Hi. bcase; auto; lia.
  Qed.

  (** ** the three stage buffers *)
  Definition st_rep (s : stages A) (a b c : cbuf A) : Prop :=
    (st_head s = 0%Z /\ st_bufs s = [a; b; c]) \/
    (st_head s = 1%Z /\ st_bufs s = [b; c; a]) \/
    (st_head s = 2%Z /\ st_bufs s = [c; a; b]).

  Ltac st_cases H :=
    destruct H as [[?H1 ?H2]|[[?H1 ?H2]|[?H1 ?H2]]].

  Lemma st_get_A s a b c : st_rep s a b c -> st_get s kA = Ok a.
  Proof. intros H. st_cases H; unfold st_get, st_index; rewrite H1, H2; reflexivity. Qed.
  Lemma st_get_B s a b c : st_rep s a b c -> st_get s kB = Ok b.
  Proof. intros H. st_cases H; unfold st_get, st_index; rewrite H1, H2; reflexivity. Qed.
  Lemma st_get_C s a b c : st_rep s a b c -> st_get s kC = Ok c.
  Proof. intros H. st_cases H; unfold st_get, st_index; rewrite H1, H2; reflexivity. Qed.

  Lemma st_put_A s a b c x : st_rep s a b c -> exists s', st_put s kA x = Ok s' /\ st_rep s' x b c.
  Proof.
    intros H. st_cases H; unfold st_put, st_index; rewrite H1, H2;
      (eexists; split; [reflexivity|]); unfold st_rep; cbn [st_head st_bufs]; auto.
  Qed.
  Lemma st_put_B s a b c x : st_rep s a b c -> exists s', st_put s kB x = Ok s' /\ st_rep s' a x c.
  Proof.
    intros H. st_cases H; unfold st_put, st_index; rewrite H1, H2;
      (eexists; split; [reflexivity|]); unfold st_rep; cbn [st_head st_bufs]; auto.
  Qed.
  Lemma st_put_C s a b c x : st_rep s a b c -> exists s', st_put s kC x = Ok s' /\ st_rep s' a b x.
  Proof.
    intros H. st_cases H; unfold st_put, st_index; rewrite H1, H2;
      (eexists; split; [reflexivity|]); unfold st_rep; cbn [st_head st_bufs]; auto.
  Qed.
  Lemma st_promote_rep s a b c : st_rep s a b c -> st_rep (st_promote s) c a b.
  Proof.
    intros H. st_cases H; unfold st_promote, st_rep; rewrite H1, H2; cbn [st_head st_bufs];
      cbn; auto.
  Qed.
  Lemma st_clear_rep s a b c :
    st_rep s a b c -> st_rep (st_clear s) (cb_clear a) (cb_clear b) (cb_clear c).
  Proof.
    intros H. st_cases H; unfold st_clear, st_rep; rewrite H1, H2; cbn [st_head st_bufs map]; auto.
  Qed.
  Lemma st_make_rep m :
    st_rep (st_make m) (cmk 1 m (fun _ _ => c0)) (cmk 1 m (fun _ _ => c0)) (cmk 1 m (fun _ _ => c0)).
  Proof.
    left. unfold st_make. cbn [st_head st_bufs repeat map].
    now rewrite cb_make_cmk, cb_clear_cmk.
  Qed.

  (** ** the frequency delay line: [h i] is the block written [i] pushes ago *)
  Definition fdl_rep (n : nat) (f : fdl A) (h : nat -> cbuf A) : Prop :=
    fdl_num_blocks f = n /\ length (fdl_blocks f) = n /\ fdl_head f < n /\
    forall i, i < n -> nth ((fdl_head f + i) mod n) (fdl_blocks f) (cb_make 0 0) = h i.

  Lemma reverse_wrap_pred h n :
    h < n -> reverse_wrap (Z.of_nat h - 1) (Z.of_nat n) = Ok (if h =? 0 then n - 1 else h - 1).
  Proof.
    intros H. unfold reverse_wrap. destruct (Z.eqb_spec (Z.of_nat n) 0); [lia|].
    destruct (Nat.eqb_spec h 0) as [->|Hh].
    - destruct (Nat.eq_dec n 1) as [->|].
      + reflexivity.
      + replace (Z.of_nat 0 - 1)%Z with (- (1))%Z by lia.
        rewrite Z.rem_opp_l by lia. rewrite (Z.rem_small 1) by lia.
        rewrite Z.rem_small by lia.
        destruct (Z.ltb_spec (Z.of_nat n + - (1)) 0); [lia|]. f_equal. lia.
    - rewrite (Z.rem_small (Z.of_nat h - 1)) by lia.
      replace (Z.of_nat n + (Z.of_nat h - 1))%Z with ((Z.of_nat h - 1) + 1 * Z.of_nat n)%Z by lia.
      rewrite Z.rem_add by nia. rewrite Z.rem_small by lia.
      destruct (Z.ltb_spec (Z.of_nat h - 1) 0); [lia|]. f_equal. lia.
  Qed.

  Lemma fdl_next_rep n f h :
    fdl_rep n f h ->
    exists f', fdl_next f = Ok f' /\ fdl_rep n f' (fun i => match i with 0 => h (n - 1) | S j => h j end).
  Proof.
    intros (H1 & H2 & H3 & H4). unfold fdl_next. rewrite H1, reverse_wrap_pred by auto. cbn [bind].
    set (p := if fdl_head f =? 0 then n - 1 else fdl_head f - 1).
    assert (p < n) by (unfold p; bcase; lia).
    rewrite assert_true by (apply Nat.ltb_lt; lia). cbn [bind]. eexists. split; [reflexivity|].
    unfold fdl_rep. cbn [fdl_num_blocks fdl_blocks fdl_head]. repeat split; auto.
    intros i Hi. destruct i as [|j].
    - rewrite <- H4 by lia. f_equal. rewrite Nat.add_0_r, Nat.mod_small by lia. unfold p.
      destruct (Nat.eqb_spec (fdl_head f) 0) as [E|E].
      + rewrite E. rewrite Nat.mod_small; lia.
      + replace (fdl_head f + (n - 1)) with (fdl_head f - 1 + 1 * n) by lia.
        rewrite Nat.mod_add, Nat.mod_small; lia.
    - rewrite <- H4 by lia. f_equal. unfold p. destruct (Nat.eqb_spec (fdl_head f) 0) as [E|E].
      + rewrite E. replace (n - 1 + S j) with (j + 1 * n) by lia. now rewrite Nat.mod_add by lia.
      + f_equal. lia.
  Qed.

  Lemma fdl_get_rep n f h i : fdl_rep n f h -> i < n -> fdl_get f i = Ok (h i).
  Proof.
    intros (H1 & H2 & H3 & H4) Hi. unfold fdl_get, fdl_index, umod. rewrite H1.
    destruct (Nat.eqb_spec n 0); [lia|]. cbn [bind].
    rewrite get_ok with (d := cb_make 0 0) by (rewrite H2; apply Nat.mod_upper_bound; lia).
    now rewrite H4.
  Qed.

  Lemma fdl_put_rep n f h x :
    fdl_rep n f h ->
    exists f', fdl_put f 0 x = Ok f' /\ fdl_rep n f' (fun i => if i =? 0 then x else h i).
  Proof.
    intros (H1 & H2 & H3 & H4). unfold fdl_put, fdl_index, umod. rewrite H1.
    destruct (Nat.eqb_spec n 0); [lia|]. cbn [bind].
    rewrite set_ok by (rewrite H2; apply Nat.mod_upper_bound; lia). cbn [bind].
    eexists. split; [reflexivity|]. unfold fdl_rep. cbn [fdl_num_blocks fdl_blocks fdl_head].
    rewrite upd_length. repeat split; auto.
    intros i Hi. rewrite Nat.add_0_r, (Nat.mod_small (fdl_head f)) by auto.
    destruct (Nat.eqb_spec i 0) as [->|E].
    - rewrite Nat.add_0_r, Nat.mod_small by auto. apply upd_nth_same. lia.
    - rewrite upd_nth_other; auto.
      rewrite mod_ring by auto. bcase; lia.
  Qed.

  Lemma fdl_clear_rep n f h :
    fdl_rep n f h -> fdl_rep n (fdl_clear f) (fun i => cb_clear (h i)).
  Proof.
    intros (H1 & H2 & H3 & H4). unfold fdl_clear, fdl_rep. cbn [fdl_num_blocks fdl_blocks fdl_head].
    rewrite map_length. repeat split; auto. intros i Hi. rewrite <- H4 by auto.
    change (cb_make 0 0) with (cb_clear (@cb_make A 0 0)). now rewrite map_nth.
  Qed.

  Lemma fdl_make_rep ch n m : 0 < n -> fdl_rep n (fdl_make ch n m) (fun _ => cmk ch m (fun _ _ => c0)).
  Proof.
    intros Hn. unfold fdl_make, fdl_rep. cbn [fdl_num_blocks fdl_blocks fdl_head].
    rewrite repeat_length. repeat split; auto. intros i Hi.
    rewrite cb_make_cmk, cb_clear_cmk. cbn [Nat.add]. rewrite Nat.mod_small by auto.
    rewrite repeat_tab, tab_nth; auto.
  Qed.

  Lemma fdl_rep_ext n f h h' : fdl_rep n f h -> (forall i, i < n -> h i = h' i) -> fdl_rep n f h'.
  Proof. intros (H1 & H2 & H3 & H4) E. repeat split; auto. intros. rewrite H4 by auto. auto. Qed.
End Delay.
