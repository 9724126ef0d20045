(** * From one block in single precision to sessions *)
From Coq Require Import Reals Lra Lia.
From Verif.Model Require Import Base Arith ArithReal ArithSingle Juce.
From Verif.Spec Require Import Transform Signal Precision.
From Verif.Proofs Require Import Lists ComplexAlg Blocks Streams StreamsQ.
Open Scope R_scope.

(** what is known of a sample [v] put out: the input [x] may be anything *)
Definition out_within (h : nat -> R) (N d : nat) (E : R -> R) (x : nat -> nat -> R) (c t : nat) (v : R) : Prop :=
  forall X, (forall c i, Rabs (x c i) + floor50 <= X) ->
    Rabs (v - @ago Rarith (@fir Rarith N h (x c)) t d) <= E X.

Lemma convolves_within_gen {St} (process : St -> audio Rarith -> res (St * audio Rarith)) (reset : St -> St)
      (n d : nat) (good : nat -> Prop) (N : nat) (h : nat -> list R) (E : R -> nat -> R)
      (Inv : (nat -> nat -> R) -> nat -> St -> Prop) :
  (forall c, (c < n)%nat -> (length (h c) <= N)%nat) ->
  (forall x T s m, good m -> Inv x T s ->
     exists s' y, process s (@mk R n m (fun c i => x c (T + i)%nat)) = Ok (s', @mk R n m y) /\
       (forall c i, (c < n)%nat -> (i < m)%nat ->
          out_within (fun j => nth j (h c) 0) N d (fun X => E X c) x c (T + i) (y c i)) /\
       Inv x (T + m)%nat s') ->
  (forall x T s x', Inv x T s -> Inv x' 0%nat (reset s)) ->
  forall s, (forall x, Inv x 0%nat s) ->
  convolves_within n d good h E process reset s.
Proof.
  intros Hh Hp Hr s Hs sessions Hb.
  destruct (@sessions_genQ Rarith St process reset n good Inv
    (fun x c t v => out_within (fun j => nth j (h c) 0) N d (fun X => E X c) x c t v) Hp Hr sessions s Hs Hb)
    as (s' & outs & Ef & _ & HF).
  exists s', outs. split; [exact Ef|]. eapply Forall2_mono; [|exact HF].
  intros ins os (H1 & H2 & H3) X HX. split; [exact H1|]. split.
  { intros i Hi. destruct (H2 i Hi) as (m & _ & A1 & A2). exists m. split; assumption. }
  intros c t Hc Ht. destruct (H3 c Hc) as [_ H4]. specialize (H4 t Ht X).
  assert (Eq : nth t (@delayed Rarith d (@convolve Rarith (h c) (channel c ins))) 0
             = @ago Rarith (@fir Rarith N (fun j => nth j (h c) 0) (@chan_fun Rarith ins c)) t d).
  { set (len := length (channel c ins)) in *.
    assert (Et : @channel Rarith c ins = tab len (@chan_fun Rarith ins c)).
    { apply (list_tab (channel c ins) len (@chan_fun Rarith ins c) 0); [reflexivity|]. intros i Hi. reflexivity. }
    rewrite Et. rewrite <- (@fir_convolve Rarith Rarith_laws N) by auto.
    rewrite <- (@delayed_tab Rarith). rewrite tab_nth by exact Ht. reflexivity. }
  rewrite Eq. apply H4. intros c' i. apply HX.
Qed.
