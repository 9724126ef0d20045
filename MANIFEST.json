{
 "claims": [
  {
   "property": "C01",
   "status": "proved",
   "theorems": [
    "C01_forward_fft_is_dft"
   ],
   "note": ""
  },
  {
   "property": "C02",
   "status": "proved",
   "theorems": [
    "C02_fft_round_trip"
   ],
   "note": ""
  },
  {
   "property": "C03",
   "status": "proved",
   "theorems": [
    "C03_steps_in_any_order",
    "C03_step_frame"
   ],
   "note": ""
  },
  {
   "property": "C04",
   "status": "proved",
   "theorems": [
    "C04_depth_irrelevant"
   ],
   "note": ""
  },
  {
   "property": "C05",
   "status": "proved",
   "theorems": [
    "C05_forward_schedule"
   ],
   "note": ""
  },
  {
   "property": "C06",
   "status": "proved",
   "theorems": [
    "C06_inverse_schedule"
   ],
   "note": ""
  },
  {
   "property": "C07",
   "status": "proved",
   "theorems": [
    "C07_spectral_product"
   ],
   "note": ""
  },
  {
   "property": "C08",
   "status": "proved",
   "theorems": [
    "C08_pointwise",
    "C08_copy",
    "C08_mismatch"
   ],
   "note": ""
  },
  {
   "property": "C09",
   "status": "proved",
   "theorems": [
    "C09_copy_aliases"
   ],
   "note": "The code has a defect here: the property states what copying really does."
  },
  {
   "property": "C10",
   "status": "proved",
   "theorems": [
    "C10_stages_rotate"
   ],
   "note": ""
  },
  {
   "property": "C11",
   "status": "proved",
   "theorems": [
    "C11_delay_line"
   ],
   "note": ""
  },
  {
   "property": "C12",
   "status": "proved",
   "theorems": [
    "C12_ring_windows",
    "C12_empty_ring"
   ],
   "note": ""
  },
  {
   "property": "C13",
   "status": "proved",
   "theorems": [
    "C13_copy_from",
    "C13_add_from",
    "C13_copy_to",
    "C13_add_to",
    "C13_split_clear",
    "C13_sub_block"
   ],
   "note": ""
  },
  {
   "property": "C17",
   "status": "proved",
   "theorems": [
    "C17_partition_count",
    "C17_not_beyond"
   ],
   "note": "Exact up to 2^24 samples; C17_not_beyond shows the bound is sharp."
  },
  {
   "property": "C19",
   "status": "proved",
   "theorems": [
    "C19_uniform_convolver"
   ],
   "note": ""
  },
  {
   "property": "C20",
   "status": "proved",
   "theorems": [
    "C20_time_distributed"
   ],
   "note": ""
  },
  {
   "property": "C21",
   "status": "proved",
   "theorems": [
    "C21_multi_channel"
   ],
   "note": ""
  },
  {
   "property": "C22",
   "status": "proved",
   "theorems": [
    "C22_load"
   ],
   "note": ""
  },
  {
   "property": "C14",
   "status": "proved",
   "theorems": [
    "C14_covers"
   ],
   "note": ""
  },
  {
   "property": "C15",
   "status": "proved",
   "theorems": [
    "C15_clearance"
   ],
   "note": ""
  },
  {
   "property": "C16",
   "status": "proved",
   "theorems": [
    "C16_nearest"
   ],
   "note": ""
  },
  {
   "property": "C18",
   "status": "proved",
   "theorems": [
    "C18_block_size",
    "C18_not_beyond"
   ],
   "note": "C18_not_beyond: the loop diverges above 2^30 for non-powers of two."
  },
  {
   "property": "C28",
   "status": "proved",
   "theorems": [
    "C28_empty_response",
    "C28_without_assertions"
   ],
   "note": "Defect of the code: the property states what really happens."
  },
  {
   "property": "C23",
   "status": "proved",
   "theorems": [
    "C23_non_uniform_convolver"
   ],
   "note": ""
  },
  {
   "property": "C24",
   "status": "proved",
   "theorems": [
    "C24_convolver"
   ],
   "note": ""
  },
  {
   "property": "C25",
   "status": "proved",
   "theorems": [
    "C25_block_sizes_do_not_matter"
   ],
   "note": ""
  },
  {
   "property": "C26",
   "status": "proved",
   "theorems": [
    "C26_reset_uniform",
    "C26_reset_time_distributed",
    "C26_reset_multi",
    "C26_reset_non_uniform",
    "C26_reset_convolver"
   ],
   "note": ""
  },
  {
   "property": "C27",
   "status": "proved",
   "theorems": [
    "C27_linear",
    "C27_causal",
    "C27_time_invariant",
    "C27_identity"
   ],
   "note": ""
  },
  {
   "property": "C29",
   "status": "proved",
   "theorems": [
    "C29_fifo",
    "C29_no_data_race",
    "C29_service_handles_all"
   ],
   "note": ""
  },
  {
   "property": "C30",
   "status": "proved",
   "theorems": [
    "C30_capacity",
    "C30_never_more",
    "C30_rejected_when_full"
   ],
   "note": ""
  },
  {
   "property": "C31",
   "status": "proved",
   "theorems": [
    "C31_one_place",
    "C31_destroyed_once",
    "C31_no_use_after_destruction"
   ],
   "note": ""
  },
  {
   "property": "C32",
   "status": "proved",
   "theorems": [
    "C32_no_destruction_in_process",
    "C32_without_room_refuted"
   ],
   "note": "C32_without_room_refuted: the defect named in the property."
  },
  {
   "property": "C33",
   "status": "proved",
   "theorems": [
    "C33_newest_wins",
    "C33_newest_wins_without_restarts"
   ],
   "note": ""
  },
  {
   "property": "C34",
   "status": "proved",
   "theorems": [
    "C34_reset",
    "C34_prepare",
    "C34_exactly_then",
    "C34_reset_during_fade_refuted"
   ],
   "note": "C34_reset_during_fade_refuted: the defect named in the property."
  },
  {
   "property": "C35",
   "status": "proved",
   "theorems": [
    "C35_clear",
    "C35_exactly_then",
    "C35_clear_during_fade_refuted"
   ],
   "note": "C35_clear_during_fade_refuted: the defect named in the property."
  },
  {
   "property": "C36",
   "status": "proved",
   "theorems": [
    "C36_crossfade",
    "C36_crossfade_whole",
    "C36_levels",
    "C36_every_fade",
    "C36_abrupt_after_reset_refuted"
   ],
   "note": "C36_abrupt_after_reset_refuted: a defect of the code, in the histories C36_every_fade leaves out"
  },
  {
   "property": "C37",
   "status": "proved",
   "theorems": [
    "C37_out",
    "C37_in",
    "C37_whole",
    "C37_one_half"
   ],
   "note": ""
  },
  {
   "property": "C38",
   "status": "proved",
   "theorems": [
    "C38_bounds",
    "C38_seconds",
    "C38_strategy_and_length",
    "C38_monotone"
   ],
   "note": ""
  },
  {
   "property": "C39",
   "status": "proved",
   "theorems": [
    "C39_none",
    "C39_none_for_ever",
    "C39_first",
    "C39_first_for_ever"
   ],
   "note": ""
  },
  {
   "property": "C46",
   "status": "proved",
   "theorems": [
    "C46_never_fails",
    "C46_convolvers_are_accepting"
   ],
   "note": ""
  },
  {
   "property": "C47",
   "status": "proved",
   "theorems": [
    "C47_crossfade",
    "C47_in_out"
   ],
   "note": ""
  },
  {
   "property": "C40",
   "status": "proved",
   "theorems": [
    "C40_only_the_latest_is_delivered",
    "C40_in_order",
    "C40_nothing_older"
   ],
   "note": ""
  },
  {
   "property": "C41",
   "status": "proved",
   "theorems": [
    "C41_delivered",
    "C41_own_pool",
    "C41_comes_to_rest"
   ],
   "note": ""
  },
  {
   "property": "C42",
   "status": "proved",
   "theorems": [
    "C42_true_means_undelivered",
    "C42_exact",
    "C42_never_loaded",
    "C42_reset_refuted"
   ],
   "note": "the defect is proved for every reachable loading state"
  },
  {
   "property": "C43",
   "status": "proved",
   "theorems": [
    "C43_cancelled_by_another_engine_refuted"
   ],
   "note": "proves the defect: for every reachable state and every continuation"
  },
  {
   "property": "C44",
   "status": "proved",
   "theorems": [
    "C44_loaded_before_prepare_refuted",
    "C44_loaded_after_prepare"
   ],
   "note": ""
  },
  {
   "property": "C45",
   "status": "proved",
   "theorems": [
    "C45_safe",
    "C45_destroyed_while_building_refuted",
    "C45_destroyed_before_the_message_refuted"
   ],
   "note": ""
  },
  {
   "property": "C48",
   "status": "proved",
   "theorems": [
    "C48_listeners_know",
    "C48_reset_is_silent_refuted"
   ],
   "note": ""
  },
  {
   "property": "C49",
   "status": "proved",
   "theorems": [
    "C49_built_from"
   ],
   "note": ""
  },
  {
   "property": "C50",
   "status": "proved",
   "theorems": [
    "C50_loads_do_not_race",
    "C50_races_refuted"
   ],
   "note": ""
  },
  {
   "property": "C51",
   "status": "proved",
   "theorems": [
    "C51_listener_deadlock_refuted"
   ],
   "note": ""
  },
  {
   "property": "C52",
   "status": "proved",
   "theorems": [
    "C52_convolver_in_charge",
    "C52_last_response_is_heard"
   ],
   "note": ""
  },
  {
   "property": "C53",
   "status": "proved",
   "theorems": [
    "C53_from_LoadIR_to_sound",
    "C53_clear_does_not_cancel_refuted"
   ],
   "note": ""
  },
  {
   "property": "C54",
   "status": "proved",
   "theorems": [
    "C54_tables",
    "C54_at_table_sizes",
    "C54_between_refuted"
   ],
   "note": "costs in fifths, so that they are integers (k = 1.7)"
  },
  {
   "property": "C55",
   "status": "proved",
   "theorems": [
    "C55_search",
    "C55_short"
   ],
   "note": "costs are exact numbers in the model and floats in the script"
  },
  {
   "property": "C56",
   "status": "proved",
   "theorems": [
    "C56_crossfade",
    "C56_in_out",
    "C56_levels",
    "C56_overshoot_refuted"
   ],
   "note": "single precision without overflow (no infinities, no NaN); uses the standard library's real numbers and Flocq's rounding"
  },
  {
   "property": "C57",
   "status": "proved",
   "theorems": [
    "C57_time_distributed_accuracy"
   ],
   "note": "single precision without overflow (no infinities, no NaN); std::pow is any function accurate within tau; levels below 2^-50 count as 2^-50"
  },
  {
   "property": "C58",
   "status": "proved",
   "theorems": [
    "C58_fft_accuracy"
   ],
   "note": "as C57"
  },
  {
   "property": "C59",
   "status": "proved",
   "theorems": [
    "C59_uniform_accuracy"
   ],
   "note": "as C57; juce::dsp::FFT is any real FFT that keeps the contract rfft_accurate (Spec/Precision.v), which the radix-2 transform in float is proved to keep (Proofs/SingleReal.v: fast_rfft_accurate)"
  },
  {
   "property": "C60",
   "status": "proved",
   "theorems": [
    "C60_scheme_accuracy"
   ],
   "note": "as C57 and C59; the hypothesis on the powers only concerns the transforms the scheme uses"
  },
  {
   "property": "C61",
   "status": "proved",
   "theorems": [
    "C61_convolver_accuracy"
   ],
   "note": "as C60"
  },
  {
   "property": "C62",
   "status": "proved",
   "theorems": [
    "C62_construction",
    "C62_never_fails",
    "C62_convolvers_are_accepting",
    "C62_engine_never_fails"
   ],
   "note": "for every arithmetic, without laws; of the real FFT only that it keeps the array size"
  },
  {
   "property": "C63",
   "status": "proved",
   "theorems": [
    "C63_finite_memory"
   ],
   "note": "for every arithmetic, without laws; runs with the same block sizes"
  },
  {
   "property": "C64",
   "status": "proved",
   "theorems": [
    "C64_last_response_is_heard",
    "C64_from_LoadIR_to_sound"
   ],
   "note": "as C61; timing hypotheses as C52 and C53"
  },
  {
   "property": "C65",
   "status": "proved",
   "theorems": [
    "C65_crossfade",
    "C65_in_out"
   ],
   "note": "as C61 and C56; fades of at most 2^22 samples"
  },
  {
   "property": "C66",
   "status": "proved",
   "theorems": [
    "C66_linearizable",
    "C66_contents"
   ],
   "note": "sequentially consistent memory accesses"
  },
  {
   "property": "C67",
   "status": "proved",
   "theorems": [
    "C67_engine_forgets"
   ],
   "note": "for every arithmetic, without laws; runs with the same block sizes"
  },
  {
   "property": "C68",
   "status": "proved",
   "theorems": [
    "C68_background_is_inaudible"
   ],
   "note": "any convolvers, any arithmetic"
  },
  {
   "property": "C69",
   "status": "proved",
   "theorems": [
    "C69_engine_linear"
   ],
   "note": "the engine with its real convolvers, any exact arithmetic and any transform that meets its contract"
  },
  {
   "property": "C70",
   "status": "proved",
   "theorems": [
    "C70_engine_stable",
    "C70_small_changes"
   ],
   "note": "exact real arithmetic; in single precision the errors of C65 come on top"
  },
  {
   "property": "C71",
   "status": "proved",
   "theorems": [
    "C71_channels_apart"
   ],
   "note": "exact arithmetics"
  },
  {
   "property": "C72",
   "status": "proved",
   "theorems": [
    "C72_no_overflow",
    "C72_ieee_accuracy"
   ],
   "note": "IEEE binary32 with infinities and NaN; the real FFT, std::exp and std::pow enter through contracts (Spec/Overflow.v), met by the library of Proofs/OverflowExample.v"
  },
  {
   "property": "C73",
   "status": "proved",
   "theorems": [
    "C73_engine_no_overflow",
    "C73_last_response_is_heard",
    "C73_crossfade",
    "C73_in_out",
    "C73_from_LoadIR_to_sound"
   ],
   "note": "IEEE binary32 with infinities and NaN; the real FFT, std::exp and std::pow enter through contracts (Spec/Overflow.v), met by the library of Proofs/OverflowExample.v"
  },
  {
   "property": "C74",
   "status": "proved",
   "theorems": [
    "C74_no_int_overflow",
    "C74_no_int_overflow_in_process",
    "C74_no_int_overflow_in_calls"
   ],
   "note": "the int operations of the library itself; ints inside JUCE are external"
  },
  {
   "property": "C75",
   "status": "proved",
   "theorems": [
    "C75_cuts_in_float",
    "C75_cuts_in_ieee"
   ],
   "note": "as C61 and C72"
  },
  {
   "property": "C76",
   "status": "proved",
   "theorems": [
    "C76_engine_causal"
   ],
   "note": "exact arithmetic"
  },
  {
   "property": "C77",
   "status": "proved",
   "theorems": [
    "C77_cuts_do_not_matter",
    "C77_in_out_refuted"
   ],
   "note": "exact arithmetic; C75 is the convolver in float"
  },
  {
   "property": "C78",
   "status": "proved",
   "theorems": [
    "C78_engine_owns_few",
    "C78_pool_holds_few"
   ],
   "note": "the message thread's own queue of callbacks is not part of the bound"
  },
  {
   "property": "C79",
   "status": "proved",
   "theorems": [
    "C79_hosts_agree",
    "C79_hosts_agree_in_float"
   ],
   "note": "the first in exact arithmetic, the second as C64"
  },
  {
   "property": "C80",
   "status": "proved",
   "theorems": [
    "C80_crossfade",
    "C80_in_out",
    "C80_change",
    "C80_gentle_input",
    "C80_gentle_input_in_out",
    "C80_cold_start_refuted"
   ],
   "note": "the bound is relative to what the two convolvers put out; that this is smooth whenever input and response are is false, and refuted, because a new convolver has not heard the past"
  }
 ]
}