(** * juce::LinearSmoothedValue<float> and AudioBlock::multiplyBy (JUCE 8.0.3, external)

    Only the targets 0 and 1 are ever used (ConvolutionEngine.cpp:125-132), so the target is a
    boolean; that makes the comparison in [setTargetValue] exact. *)
From Verif.Model Require Import Base Arith Juce.

Section Smoothed.
  Context {A : arith}.

  (** JUCE 8.0.3, juce_SmoothedValue.h: the members of SmoothedValueBase and LinearSmoothedValue (external) *)
  Record smooth : Type := {
    sm_target : bool;         (* target *)
    sm_current : sample A;    (* currentValue *)
    sm_step : sample A;       (* step *)
    sm_count : nat;           (* countdown *)
    sm_steps : Z              (* stepsToTarget *)
  }.
  (** a target as a sample *)
  Definition level (b : bool) : sample A := if b then s1 else s0.

  (** the default constructor: current and target value 0, no steps *)
  Definition sm_new : smooth :=
    {| sm_target := false; sm_current := s0; sm_step := s0; sm_count := 0; sm_steps := 0 |}.

  (** [isSmoothing] *)
  (** JUCE 8.0.3 (external) *)
  Definition sm_smoothing (v : smooth) : bool := 0 <? sm_count v.
  (** [setCurrentAndTargetValue] *)
  (** JUCE 8.0.3 (external) *)
  Definition sm_set (b : bool) (v : smooth) : smooth :=
    {| sm_target := b; sm_current := level b; sm_step := sm_step v; sm_count := 0; sm_steps := sm_steps v |}.
  (** [reset (int numSteps)] *)
  (** JUCE 8.0.3 (external) *)
  Definition sm_reset (n : Z) (v : smooth) : smooth :=
    {| sm_target := sm_target v; sm_current := level (sm_target v); sm_step := sm_step v; sm_count := 0;
       sm_steps := n |}.
  (** [setTargetValue] *)
  (** JUCE 8.0.3 (external) *)
  Definition sm_set_target (b : bool) (v : smooth) : smooth :=
    if Bool.eqb b (sm_target v) then v
    else if (sm_steps v <=? 0)%Z then sm_set b v
    else {| sm_target := b; sm_current := sm_current v;
            sm_step := smul (ssub (level b) (sm_current v)) (sinvn (Z.to_nat (sm_steps v)));
            sm_count := Z.to_nat (sm_steps v); sm_steps := sm_steps v |}.
  (** [getNextValue] *)
  (** JUCE 8.0.3 (external) *)
  Definition sm_next (v : smooth) : smooth * sample A :=
    match sm_count v with
    | 0 => (v, level (sm_target v))
    | 1 => ({| sm_target := sm_target v; sm_current := level (sm_target v); sm_step := sm_step v;
               sm_count := 0; sm_steps := sm_steps v |}, level (sm_target v))
    | S c => let cur := sadd (sm_current v) (sm_step v) in
             ({| sm_target := sm_target v; sm_current := cur; sm_step := sm_step v;
                 sm_count := c; sm_steps := sm_steps v |}, cur)
    end.
  (** [n] calls of [getNextValue] *)
  (** JUCE 8.0.3 (external) *)
  Fixpoint sm_values (n : nat) (v : smooth) : smooth * list (sample A) :=
    match n with
    | 0 => (v, [])
    | S n' => let '(v1, x) := sm_next v in let '(v2, xs) := sm_values n' v1 in (v2, x :: xs)
    end.
  (** [AudioBlock::multiplyBy (SmoothedValue&)] *)
  (** JUCE 8.0.3 (external) *)
  Definition blk_multiply_by (b : audio A) (v : smooth) : audio A * smooth :=
    if sm_smoothing v then
      let '(v', gains) := sm_values (num_samples b) v in
      (map (fun c => zipw smul c gains) b, v')
    else (map (map (fun x => smul x (level (sm_target v)))) b, v).
End Smoothed.
Arguments smooth : clear implicits.
