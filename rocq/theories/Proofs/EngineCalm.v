(** * The newest convolver wins *)
From Verif.Model Require Import Base Arith Juce Float32 SmoothedValue Convolver ConvolutionEngine.
From Verif.Spec Require Import Transform Signal Engine.
From Verif.Proofs Require Import Lists Blocks FFTProof FadeProof SmoothProof EngineProof EngineInv EngineFront.

Section Calm.
  Context {A : arith} (I : conv_if A).
  Notation engine := (engine I).
  Notation held := (held I).
  Notation front := (front I).
  Notation front_of := (front_of I).

  Definition fids (F : front) : list nat := slot_ids (f_conv I F) ++ slot_ids (f_fade I F) ++ slot_ids (f_pend I F).
  Definition fcalm (F : front) : Prop :=
    (f_conv I F = None -> f_fade I F = None) /\ (f_fade I F = None -> f_pend I F = None).

  Lemma line_front e : line e = fids (front_of e) ++ map (h_id I) (e_commands I e).
  Proof.
    unfold line, in_line, fids. cbn [front_of f_conv f_fade f_pend]. rewrite !map_app, <- !app_assoc.
    destruct (e_conv I e), (e_fade I e), (e_pending I e); reflexivity.
  Qed.

  Lemma take_calm b F h : fcalm F -> fcalm (take I b F h) /\ newest (fids (take I b F h)) = Some (h_id I h) /\
    length (fids (take I b F h)) <= S (length (fids F)).
  Proof.
    intros [H1 H2]. destruct F as [c f p si so st]. unfold take, start, fcalm, fids in *. cbn [f_conv f_fade f_pend] in *.
    destruct c as [c|]; [destruct f as [f|]|]; cbn [f_conv f_fade f_pend slot_ids].
    - repeat split; try discriminate; auto. destruct p; cbn; lia.
    - rewrite (H2 eq_refl). repeat split; try discriminate; auto.
    - rewrite (H1 eq_refl), (H2 (H1 eq_refl)). repeat split; try discriminate; auto.
  Qed.
  Lemma takes_calm b l : forall F, fcalm F -> fcalm (takes I b l F) /\
    newest (fids (takes I b l F)) = newest (fids F ++ map (h_id I) l) /\ length (fids (takes I b l F)) <= length (fids F) + length l.
  Proof.
    unfold takes. induction l as [|h l IH]; intros F H; cbn [fold_left map length].
    - rewrite app_nil_r. split; auto. split; auto. lia.
    - destruct (take_calm b F h H) as (H1 & H2 & H3). destruct (IH _ H1) as (G1 & G2 & G3). split; auto. split; [|lia].
      rewrite G2, !newest_app, H2. change (h_id I h :: map (h_id I) l) with ([h_id I h] ++ map (h_id I) l). rewrite newest_app.
      destruct (newest (map (h_id I) l)); reflexivity.
  Qed.

  Lemma fin_calm b F : f_conv I F <> None -> f_fade I F <> None -> fcalm (fin I b F) /\ newest (fids (fin I b F)) = newest (fids F).
  Proof.
    intros H0 H. destruct F as [c f p si so st]. unfold fin, start, fcalm, fids. cbn [f_conv f_fade f_pend] in *.
    destruct c as [c|]; [|easy]. destruct f as [f|]; [|easy].
    destruct p as [p|]; cbn [f_conv f_fade f_pend slot_ids]; repeat split; try discriminate; auto.
  Qed.
  Lemma check_calm b F : f_conv I F <> None -> f_fade I F <> None ->
    fcalm (check I b F) /\ newest (fids (check I b F)) = newest (fids F).
  Proof.
    intros H0 H. unfold check. destruct (sm_smoothing _); [|now apply fin_calm]. split; auto. split; intros; contradiction.
  Qed.

  Variable w : nat.
  Notation one_block := (one_block I w).

  Lemma proc_ids' (h : option held) b h' o : proc I h b = Ok (h', o) -> slot_ids h' = slot_ids h /\ (h' = None <-> h = None).
  Proof.
    destruct h as [h|]; cbn [proc]; intros H; [|injection H as <- <-; tauto].
    destruct (cv_process _ _ _) as [[c o']| |]; cbn [bind] in H; try discriminate. injection H as <- <-.
    split; [reflexivity|]. split; discriminate.
  Qed.

  Lemma one_block_calm b m out F F' o : one_block b m out F F' o -> fcalm F -> fcalm F' /\ newest (fids F') = newest (fids F).
  Proof.
    intros H [H1 H2].
    assert (HC : f_fade I F <> None -> f_conv I F <> None) by (intros X Y; now apply X, H1).
    destruct H as [c' o Ef Ec _|f c' oa f' ob Ef Es Ec _ Eb _|f c' oa Ef Es Eo Ec _|f f' ob Ef Es Eo Eb _].
    - apply proc_ids' in Ec. destruct Ec as [Ec Ec2]. unfold fcalm, fids. cbn [with_slots f_conv f_fade f_pend].
      rewrite Ec, Ef. rewrite (H2 Ef). auto.
    - apply proc_ids' in Ec. destruct Ec as [Ec Ec2]. apply proc_ids' in Eb. destruct Eb as [Eb _].
      match goal with |- fcalm (check I b ?X) /\ _ => destruct (check_calm b X) as [C1 C2] end.
      + cbn. intros X. apply HC; [congruence|tauto].
      + cbn. discriminate.
      + split; auto. rewrite C2. unfold fids. cbn [with_slots with_smooth f_conv f_fade f_pend]. rewrite Ec, Eb, Ef. reflexivity.
    - apply proc_ids' in Ec. destruct Ec as [Ec Ec2].
      match goal with |- fcalm (check I b ?X) /\ _ => destruct (check_calm b X) as [C1 C2] end.
      + cbn. intros X. apply HC; [congruence|tauto].
      + cbn. discriminate.
      + split; auto. rewrite C2. unfold fids. cbn [with_slots with_smooth f_conv f_fade f_pend]. rewrite Ec, Ef. reflexivity.
    - apply proc_ids' in Eb. destruct Eb as [Eb _].
      match goal with |- fcalm (check I b ?X) /\ _ => destruct (check_calm b X) as [C1 C2] end.
      + cbn. apply HC. congruence.
      + cbn. discriminate.
      + split; auto. rewrite C2. unfold fids. cbn [with_slots with_smooth f_conv f_fade f_pend]. rewrite Eb, Ef. reflexivity.
  Qed.

  Lemma settle_calm F : fcalm F -> length (fids F) <= 2 ->
    f_fade I (settle I F) = None /\ f_pend I (settle I F) = None /\ newest (fids (settle I F)) = newest (fids F).
  Proof.
    intros [H1 H2] HL. destruct F as [c f p si so st]. unfold settle, fids in *. cbn [f_conv f_fade f_pend] in *.
    destruct p as [p|]; [destruct f as [f|]; [destruct c as [c|]; [cbn in HL; lia|now specialize (H1 eq_refl)]|now specialize (H2 eq_refl)]|].
    destruct f as [f|]; cbn [f_conv f_fade f_pend reset_conv slot_ids h_id].
    - destruct c; auto.
    - destruct c; auto.
  Qed.

  Definition calm (e : engine) : Prop := fcalm (front_of e) /\ latest None (e_log I e) = newest (line e).

  Lemma adds_latest e e' news x : adds I e e' news ->
    latest x (e_log I e') = match newest (map (h_id I) news) with Some i => Some i | None => latest x (e_log I e) end.
  Proof. intros [(d & L & X) _]. now rewrite L, latest_app, X. Qed.

  (** ** how long fades can last *)
  Section Len.
  Variable M : nat.
  Definition phase (F : front) : nat :=
    match f_strat I F with
    | kCrossfade => sm_count (f_in I F)
    | kInOut => sm_count (f_in I F) + (if 0 <? sm_count (f_out I F) then sm_count (f_out I F) + M else 0)
    end.
  Notation longest b := (longest_fade b M).
  Definition todo (b : bounds) (F : front) : nat :=
    match f_fade I F with
    | None => 0
    | Some _ => phase F + M + match f_pend I F with Some _ => longest b + M | None => 0 end
    end.

  Lemma set_target_count t n (v : smooth A) : sm_count (sm_set_target t (sm_reset n v)) <= Z.to_nat n.
  Proof. unfold sm_set_target. destruct (Bool.eqb _ _); cbn; [lia|]. destruct (n <=? 0)%Z; cbn; lia. Qed.
  Lemma start_phase b h F : (lower_fade_bound b <= upper_fade_bound b)%Z -> phase (start I b h F) <= longest b.
  Proof.
    intros HO. unfold phase, start, longest_fade. cbn [f_strat f_in f_out].
    pose proof (set_target_count true (snd (fade_len I b h)) (f_in I F)) as C1.
    pose proof (set_target_count false (snd (fade_len I b h)) (f_out I F)) as C2.
    unfold fade_len in *. destruct (cv_fade I (h_cv I h)); [|destruct (_ <=? _)%Z]; cbn [fst snd] in *.
    - destruct (0 <? _); lia.
    - destruct (0 <? _); lia.
    - lia.
  Qed.
  Definition fbound (b : bounds) (F : front) : Prop := f_fade I F <> None -> phase F <= longest b.
  Lemma take_bound b F h : (lower_fade_bound b <= upper_fade_bound b)%Z -> fbound b F -> fbound b (take I b F h).
  Proof.
    intros HO H. unfold take. destruct (f_conv I F); [destruct (f_fade I F) eqn:Ef|]; intros X.
    - apply H. congruence.
    - now apply start_phase.
    - now apply H.
  Qed.
  Lemma takes_bound b l : (lower_fade_bound b <= upper_fade_bound b)%Z -> forall F, fbound b F -> fbound b (takes I b l F).
  Proof. intros HO. unfold takes. induction l as [|h l IH]; intros F H; auto. cbn [fold_left]. apply IH. now apply take_bound. Qed.
  Lemma fin_todo b F : (lower_fade_bound b <= upper_fade_bound b)%Z ->
    todo b (fin I b F) <= match f_pend I F with Some _ => longest b + M | None => 0 end /\ fbound b (fin I b F).
  Proof.
    intros HO. unfold fin. destruct (f_pend I F) as [p|].
    - split; [|intros _; now apply start_phase].
      match goal with |- todo b (start I b p ?X) <= _ => pose proof (start_phase b p X HO) as S1; set (Y := X) in * end.
      unfold todo. change (f_fade I (start I b p Y)) with (Some p). change (f_pend I (start I b p Y)) with (@None held). cbv iota. lia.
    - split; [unfold todo; cbn; lia|]. intros X. now destruct X.
  Qed.
  Lemma check_todo b F m T : (lower_fade_bound b <= upper_fade_bound b)%Z -> m <= M -> f_fade I F <> None ->
    phase F + m <= T \/ (sm_count (f_in I F) = 0 /\ phase F <= T) -> T <= longest b ->
    fbound b (check I b F) /\
    (f_fade I (check I b F) = None \/
     todo b (check I b F) + m <= T + M + match f_pend I F with Some _ => longest b + M | None => 0 end).
  Proof.
    intros HO Hm Hf HT HTl. unfold check, sm_smoothing. destruct (Nat.ltb_spec 0 (sm_count (f_in I F))) as [Hs|Hs].
    - destruct HT as [HT|HT]; [|lia]. split; [intros _; lia|]. right. unfold todo. destruct (f_fade I F); [|easy]. lia.
    - destruct (fin_todo b F HO) as [T1 B1]. split; auto. right. lia.
  Qed.

  Lemma one_block_todo b m out F F' o : (lower_fade_bound b <= upper_fade_bound b)%Z -> m <= M ->
    one_block b m out F F' o -> fbound b F ->
    fbound b F' /\ (f_fade I F' = None \/ todo b F' + m <= todo b F).
  Proof.
    intros HO Hm H HB.
    destruct H as [c' o Ef Ec _|f c' oa f' ob Ef Es Ec _ Eb _|f c' oa Ef Es Eo Ec _|f f' ob Ef Es Eo Eb _].
    - split; [intros X; now destruct X|]. left. reflexivity.
    - assert (X : phase F <= longest b) by (apply HB; congruence). unfold phase in X. rewrite Es in X.
      match goal with |- fbound b (check I b ?Y) /\ _ => destruct (check_todo b Y m (sm_count (f_in I F))) as [C1 C2] end; auto.
      + cbn. discriminate.
      + unfold phase. cbn [with_smooth with_slots f_strat f_in f_out]. rewrite Es, sm_iter_count. lia.
      + split; auto. destruct C2 as [C2|C2]; auto. right. cbn [with_smooth with_slots f_pend] in C2.
        unfold todo at 2. rewrite Ef. unfold phase. rewrite Es. lia.
    - assert (X : phase F <= longest b) by (apply HB; congruence). unfold phase in X. rewrite Es in X.
      rewrite (proj2 (Nat.ltb_lt _ _)) in X by auto.
      match goal with |- fbound b (check I b ?Y) /\ _ => destruct (check_todo b Y m (sm_count (f_in I F) + (sm_count (f_out I F) + M))) as [C1 C2] end; auto.
      + cbn. discriminate.
      + left. unfold phase. cbn [with_smooth with_slots f_strat f_in f_out]. rewrite Es, sm_iter_count. destruct (Nat.ltb_spec 0 (sm_count (f_out I F) - m)); lia.
      + split; auto. destruct C2 as [C2|C2]; auto. right. cbn [with_smooth with_slots f_pend] in C2.
        unfold todo at 2. rewrite Ef. unfold phase. rewrite Es. rewrite (proj2 (Nat.ltb_lt _ _)) by auto. lia.
    - assert (X : phase F <= longest b) by (apply HB; congruence). unfold phase in X. rewrite Es in X.
      rewrite Eo in X. cbn [Nat.ltb Nat.leb] in X. 
      match goal with |- fbound b (check I b ?Y) /\ _ => destruct (check_todo b Y m (sm_count (f_in I F))) as [C1 C2] end; auto.
      + cbn. discriminate.
      + unfold phase. cbn [with_smooth with_slots f_strat f_in f_out]. rewrite Es, Eo, sm_iter_count. cbn [Nat.ltb Nat.leb]. lia.
      + lia.
      + split; auto. destruct C2 as [C2|C2]; auto. right. cbn [with_smooth with_slots f_pend] in C2.
        unfold todo at 2. rewrite Ef. unfold phase. rewrite Es, Eo. cbn. lia.
  Qed.
  End Len.
End Calm.
