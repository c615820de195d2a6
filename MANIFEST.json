{
 "claims": [
  {
   "property": "C01",
   "status": "proved",
   "theorems": [
    "C01_well_formed",
    "C01_calls_succeed"
   ],
   "note": ""
  },
  {
   "property": "C02",
   "status": "proved",
   "theorems": [
    "C02_maximal_run",
    "C02_stops"
   ],
   "note": ""
  },
  {
   "property": "C03",
   "status": "proved",
   "theorems": [
    "C03_no_error"
   ],
   "note": ""
  },
  {
   "property": "C04",
   "status": "proved",
   "theorems": [
    "C04_frame",
    "C04_noop",
    "C04_progress"
   ],
   "note": ""
  },
  {
   "property": "C05",
   "status": "proved",
   "theorems": [
    "C05_first_return",
    "C05_sequences"
   ],
   "note": ""
  },
  {
   "property": "C06",
   "status": "proved",
   "theorems": [
    "C06_periodic_preserved",
    "C06_orbits_meet",
    "C06_split"
   ],
   "note": ""
  },
  {
   "property": "C07",
   "status": "proved",
   "theorems": [
    "C07_return_value"
   ],
   "note": ""
  },
  {
   "property": "C08",
   "status": "proved",
   "theorems": [
    "C08_reduce"
   ],
   "note": ""
  },
  {
   "property": "C09",
   "status": "proved",
   "theorems": [
    "C09_reduce_dynamics"
   ],
   "note": ""
  },
  {
   "property": "C10",
   "status": "proved",
   "theorems": [
    "C10_swap_inverts",
    "C10_swapped_parity"
   ],
   "note": ""
  },
  {
   "property": "C11",
   "status": "proved",
   "theorems": [
    "C11_saf_invariant"
   ],
   "note": ""
  },
  {
   "property": "C12",
   "status": "proved",
   "theorems": [
    "C12_value",
    "C12_swap",
    "C12_reduce"
   ],
   "note": ""
  },
  {
   "property": "C13",
   "status": "proved",
   "theorems": [
    "C13_commensurable"
   ],
   "note": ""
  },
  {
   "property": "C14",
   "status": "proved",
   "theorems": [
    "C14_no_periodic_trajectory",
    "C14_decides"
   ],
   "note": ""
  },
  {
   "property": "C15",
   "status": "proved",
   "theorems": [
    "C15_no_saddle_connection",
    "C15_decides"
   ],
   "note": ""
  },
  {
   "property": "C16",
   "status": "proved",
   "theorems": [
    "C16_no_saddle_connection_at_all",
    "C16_conjunction",
    "C16_rejects_end_points"
   ],
   "note": ""
  },
  {
   "property": "C17",
   "status": "proved",
   "theorems": [
    "C17_shortcut"
   ],
   "note": ""
  },
  {
   "property": "C18",
   "status": "proved",
   "theorems": [
    "C18_agree",
    "C18_integer_program",
    "C18_rejects"
   ],
   "note": ""
  },
  {
   "property": "C19",
   "status": "proved",
   "theorems": [
    "C19_non_negative",
    "C19_positive"
   ],
   "note": ""
  },
  {
   "property": "C20",
   "status": "proved",
   "theorems": [
    "C20_exact",
    "C20_constructors",
    "C20_normalization",
    "C20_equality",
    "C20_elementary",
    "C20_undo"
   ],
   "note": ""
  },
  {
   "property": "C21",
   "status": "partial",
   "theorems": [
    "C21_partial",
    "C21_refuted"
   ],
   "note": "Refuted in general: map_space_dimensions is called with a map that is not injective for three or more dimensions (and for i = j). Proved: whenever the call is defined it exchanges the coordinates."
  },
  {
   "property": "C22",
   "status": "proved",
   "theorems": [
    "C22_classification"
   ],
   "note": ""
  },
  {
   "property": "C23",
   "status": "proved",
   "theorems": [
    "C23_no_assertion",
    "C23_boshernitzan_verdict",
    "C23_periodic_points"
   ],
   "note": ""
  },
  {
   "property": "C24",
   "status": "partial",
   "theorems": [
    "C24_partial",
    "C24_refuted"
   ],
   "note": "False of the code: an IET with eight intervals and lengths in Q(sqrt 3), obtained by calls of induce, zorichInduction and swap, is called AUTO_SIMILAR although it has a periodic trajectory (C24_refuted). C24_partial: true if the top row lists the labels in the same order as when the similarity tracker was started."
  },
  {
   "property": "C25",
   "status": "proved",
   "theorems": [
    "C25_terminates"
   ],
   "note": ""
  },
  {
   "property": "C26",
   "status": "proved",
   "theorems": [
    "C26_budget",
    "C26_split"
   ],
   "note": "Proved without the restriction to SAF != 0."
  },
  {
   "property": "C27",
   "status": "proved",
   "theorems": [
    "C27_target",
    "C27_component",
    "C27_history",
    "C27_bounds"
   ],
   "note": ""
  },
  {
   "property": "C28",
   "status": "partial",
   "theorems": [
    "C28_cylinder",
    "C28_cylinder_kept",
    "C28_partial",
    "C28_included"
   ],
   "note": "Cylinder flags: proved. withoutPeriodicTrajectory: proved for histories in which the labels are in the same order as when the tracker was started whenever a step answers AUTO_SIMILAR (in particular when no step does). Missing are flags that stem from other AUTO_SIMILAR verdicts; such verdicts can be wrong (C24_refuted), but the counterexample needs a call of swap between calls of induce, which decompositions do not make."
  },
  {
   "property": "C29",
   "status": "proved",
   "theorems": [
    "C29_cylinders",
    "C29_limited"
   ],
   "note": ""
  },
  {
   "property": "C30",
   "status": "proved",
   "theorems": [
    "C30_consistent"
   ],
   "note": ""
  },
  {
   "property": "C31",
   "status": "proved",
   "theorems": [
    "C31_chain",
    "C31_top"
   ],
   "note": ""
  },
  {
   "property": "C32",
   "status": "proved",
   "theorems": [
    "C32_number"
   ],
   "note": ""
  },
  {
   "property": "C33",
   "status": "proved",
   "theorems": [
    "C33_partition",
    "C33_step"
   ],
   "note": ""
  },
  {
   "property": "C34",
   "status": "proved",
   "theorems": [
    "C34_navigation",
    "C34_inverse"
   ],
   "note": ""
  },
  {
   "property": "C35",
   "status": "proved",
   "theorems": [
    "C35_perimeter"
   ],
   "note": ""
  },
  {
   "property": "C36",
   "status": "proved",
   "theorems": [
    "C36_cross",
    "C36_order"
   ],
   "note": ""
  },
  {
   "property": "C37",
   "status": "proved",
   "theorems": [
    "C37_independent"
   ],
   "note": ""
  },
  {
   "property": "C38",
   "status": "proved",
   "theorems": [
    "C38_transparent"
   ],
   "note": ""
  },
  {
   "property": "C39",
   "status": "partial",
   "theorems": [
    "C39_refuted",
    "C39_others"
   ],
   "note": "False of the code: DynamicalDecomposition(const IntervalExchangeTransformation&) shares the lengths of the IET passed in, so decomposing changes them (C39_refuted). What holds is C39_others: lengths of labels outside of the IET never change."
  },
  {
   "property": "C40",
   "status": "partial",
   "theorems": [
    "C40_roundtrip",
    "C40_lengths",
    "C40_refuted"
   ],
   "note": "Rows, lengths, SAF invariant, == and equivalent survive the round trip (C40_roundtrip, C40_lengths); swapped() does not (C40_refuted). The archive is modelled as a tree; the serialization of the coefficients by cereal/exact-real is assumed faithful."
  },
  {
   "property": "C41",
   "status": "proved",
   "theorems": [
    "C41_meaning",
    "C41_equivalence",
    "C41_same_map"
   ],
   "note": ""
  },
  {
   "property": "C42",
   "status": "proved",
   "theorems": [
    "C42_names"
   ],
   "note": ""
  },
  {
   "property": "C43",
   "status": "proved",
   "theorems": [
    "C43_exact",
    "C43_results",
    "C43_overflow"
   ],
   "note": ""
  },
  {
   "property": "C44",
   "status": "partial",
   "theorems": [
    "C44_refuted",
    "C44_partial"
   ],
   "note": "The constructor compares only the numbers of distinct labels, so rows with different labels are accepted (C44_refuted). C44_partial characterizes exactly what is accepted; missing is that the rows have the same labels."
  },
  {
   "property": "C45",
   "status": "proved",
   "theorems": [
    "C45_only_forget",
    "C45_similar",
    "C45_scaled"
   ],
   "note": ""
  },
  {
   "property": "C46",
   "status": "proved",
   "theorems": [
    "C46_result",
    "C46_succeeds"
   ],
   "note": ""
  },
  {
   "property": "C47",
   "status": "proved",
   "theorems": [
    "C47_hash"
   ],
   "note": ""
  },
  {
   "property": "C48",
   "status": "partial",
   "theorems": [
    "C48_terminates",
    "C48_budget",
    "C48_unlimited",
    "C48_refuted"
   ],
   "note": "Limited steps: proved. Unlimited steps: the claim is false, the int counter overflows for consecutive Fibonacci lengths (C48_refuted); no overflow and termination proved for commensurable lengths with fewer than 2147483646 units in total (C48_unlimited)."
  },
  {
   "property": "C49",
   "status": "proved",
   "theorems": [
    "C49_helper",
    "C49_out_of_range"
   ],
   "note": ""
  },
  {
   "property": "C50",
   "status": "proved",
   "theorems": [
    "C50_links",
    "C50_calls",
    "C50_induce",
    "C50_safe",
    "C50_histories"
   ],
   "note": ""
  },
  {
   "property": "C51",
   "status": "proved",
   "theorems": [
    "C51_equations",
    "C51_values"
   ],
   "note": ""
  },
  {
   "property": "C52",
   "status": "proved",
   "theorems": [
    "C52_tiles",
    "C52_periodic"
   ],
   "note": ""
  },
  {
   "property": "C53",
   "status": "proved",
   "theorems": [
    "C53_genuine"
   ],
   "note": ""
  },
  {
   "property": "C54",
   "status": "proved",
   "theorems": [
    "C54_genuine",
    "C54_complete",
    "C54_reported"
   ],
   "note": ""
  },
  {
   "property": "C55",
   "status": "proved",
   "theorems": [
    "C55_constructor",
    "C55_stack",
    "C55_compare",
    "C55_equality"
   ],
   "note": ""
  },
  {
   "property": "C56",
   "status": "proved",
   "theorems": [
    "C56_subtract",
    "C56_repeated",
    "C56_empty"
   ],
   "note": ""
  },
  {
   "property": "C57",
   "status": "proved",
   "theorems": [
    "C57_iet",
    "C57_label",
    "C57_induce",
    "C57_decomposition",
    "C57_step"
   ],
   "note": ""
  },
  {
   "property": "C58",
   "status": "proved",
   "theorems": [
    "C58_separating",
    "C58_nonseparating",
    "C58_none"
   ],
   "note": ""
  },
  {
   "property": "C59",
   "status": "proved",
   "theorems": [
    "C59_recognized",
    "C59_same_labels"
   ],
   "note": ""
  },
  {
   "property": "C60",
   "status": "proved",
   "theorems": [
    "C60_quadratic",
    "C60_calls",
    "C60_call",
    "C60_saf"
   ],
   "note": ""
  },
  {
   "property": "C61",
   "status": "proved",
   "theorems": [
    "C61_history",
    "C61_decompose",
    "C61_unlimited"
   ],
   "note": ""
  },
  {
   "property": "C62",
   "status": "proved",
   "theorems": [
    "C62_transparent",
    "C62_safe",
    "C62_cylinders"
   ],
   "note": ""
  },
  {
   "property": "C63",
   "status": "proved",
   "theorems": [
    "C63_kept",
    "C63_half_edges"
   ],
   "note": ""
  },
  {
   "property": "C64",
   "status": "proved",
   "theorems": [
    "C64_accepted",
    "C64_check",
    "C64_perimeter"
   ],
   "note": ""
  },
  {
   "property": "C65",
   "status": "proved",
   "theorems": [
    "C65_commute",
    "C65_schedule",
    "C65_decompose"
   ],
   "note": ""
  },
  {
   "property": "C66",
   "status": "proved",
   "theorems": [
    "C66_program",
    "C66_decomposition"
   ],
   "note": ""
  },
  {
   "property": "C67",
   "status": "proved",
   "theorems": [
    "C67_mpz",
    "C67_int",
    "C67_mpq",
    "C67_program",
    "C67_decomposition"
   ],
   "note": ""
  },
  {
   "property": "C68",
   "status": "proved",
   "theorems": [
    "C68_program",
    "C68_decomposition",
    "C68_fields",
    "C68_fields_decomposition"
   ],
   "note": ""
  },
  {
   "property": "C69",
   "status": "proved",
   "theorems": [
    "C69_coordinates",
    "C69_success",
    "C69_elements"
   ],
   "note": ""
  },
  {
   "property": "C70",
   "status": "partial",
   "theorems": [
    "C70_order_refuted",
    "C70_order_partial",
    "C70_all_orders"
   ],
   "note": "False: with [1 in a cubic field, sqrt(2)] an exception is thrown, in the other order not (C70_order_refuted). C70_all_orders says exactly which lists work in all orders and which work in some order; C70_order_partial: the order does not matter if all elements that do not live in fields of degree one live in the same field."
  },
  {
   "property": "C71",
   "status": "proved",
   "theorems": [
    "C71_iet",
    "C71_again"
   ],
   "note": ""
  },
  {
   "property": "C72",
   "status": "proved",
   "theorems": [
    "C72_program",
    "C72_decomposition",
    "C72_comparison"
   ],
   "note": ""
  },
  {
   "property": "C73",
   "status": "proved",
   "theorems": [
    "C73_towers",
    "C73_return",
    "C73_orbits",
    "C73_periods",
    "C73_injected"
   ],
   "note": ""
  },
  {
   "property": "C74",
   "status": "proved",
   "theorems": [
    "C74_group",
    "C74_measures",
    "C74_injected"
   ],
   "note": ""
  },
  {
   "property": "C75",
   "status": "proved",
   "theorems": [
    "C75_calls",
    "C75_call"
   ],
   "note": ""
  },
  {
   "property": "C76",
   "status": "proved",
   "theorems": [
    "C76_history",
    "C76_injected"
   ],
   "note": ""
  },
  {
   "property": "C77",
   "status": "partial",
   "theorems": [
    "C77_genuine",
    "C77_partial",
    "C77_refuted"
   ],
   "note": "Proved when the top row lists the labels in the same order as when the similarity tracker was started, and for self-similar exchanges; refuted otherwise."
  },
  {
   "property": "C78",
   "status": "proved",
   "theorems": [
    "C78_steps",
    "C78_verdicts"
   ],
   "note": ""
  },
  {
   "property": "C79",
   "status": "proved",
   "theorems": [
    "C79_obtainable",
    "C79_constructor",
    "C79_independent"
   ],
   "note": ""
  },
  {
   "property": "C80",
   "status": "partial",
   "theorems": [
    "C80_refuted",
    "C80_partial"
   ],
   "note": "False for IETs built by the Python constructor: lengths() returns the object that was passed in, which is a copy and is not updated (C80_refuted). C80_partial: true for IETs that were split off or unpickled; the labels are always known."
  },
  {
   "property": "C81",
   "status": "partial",
   "theorems": [
    "C81_partial",
    "C81_known",
    "C81_gmp",
    "C81_refuted"
   ],
   "note": "False for an IET that was itself unpickled: its pickle does not name the type of its lengths (C81_refuted). C81_partial: true if the process has used the type in a constructor. What cppyythonizations does with the headers is taken from the comment in the code."
  },
  {
   "property": "C82",
   "status": "proved",
   "theorems": [
    "C82_rows",
    "C82_loaded",
    "C82_commensurable",
    "C82_exception"
   ],
   "note": ""
  },
  {
   "property": "C83",
   "status": "proved",
   "theorems": [
    "C83_safe",
    "C83_calls",
    "C83_alive",
    "C83_freed"
   ],
   "note": ""
  },
  {
   "property": "C84",
   "status": "proved",
   "theorems": [
    "C84_criteria",
    "C84_dynamics",
    "C84_induce",
    "C84_unlimited",
    "C84_steps",
    "C84_decompose"
   ],
   "note": ""
  },
  {
   "property": "C85",
   "status": "proved",
   "theorems": [
    "C85_boundary",
    "C85_sides",
    "C85_fit",
    "C85_rows",
    "C85_cycles"
   ],
   "note": ""
  },
  {
   "property": "C86",
   "status": "proved",
   "theorems": [
    "C86_connected",
    "C86_sides",
    "C86_components"
   ],
   "note": ""
  },
  {
   "property": "C87",
   "status": "proved",
   "theorems": [
    "C87_looking",
    "C87_history",
    "C87_reply"
   ],
   "note": ""
  },
  {
   "property": "C88",
   "status": "proved",
   "theorems": [
    "C88_returns",
    "C88_insists"
   ],
   "note": ""
  },
  {
   "property": "C89",
   "status": "proved",
   "theorems": [
    "C89_kept",
    "C89_lost",
    "C89_sides"
   ],
   "note": ""
  },
  {
   "property": "C90",
   "status": "proved",
   "theorems": [
    "C90_any",
    "C90_sample",
    "C90_cached"
   ],
   "note": ""
  },
  {
   "property": "C91",
   "status": "partial",
   "theorems": [
    "C91_calls",
    "C91_partial",
    "C91_safe",
    "C91_zorich",
    "C91_stack_refuted",
    "C91_tracker_refuted",
    "C91_verdict_refuted"
   ],
   "note": "Exceptions always get to the user and the rows and lengths stay usable: a new IET can be made of them once the stack has been popped. All calls but the two inductions leave the IET in a state in which it can be used on (C91_safe); zorichInduction does so, too, unless it left labels on the stack (C91_zorich). But after an induction the object itself cannot be used on in general: refuted by three runs (labels that are left on the stack make the next induction fail an assertion; an interrupted reset of the tracker leads to undefined behaviour or to a wrong AUTO_SIMILAR)."
  },
  {
   "property": "C92",
   "status": "partial",
   "theorems": [
    "C92_step",
    "C92_decompose",
    "C92_partial",
    "C92_where",
    "C92_stack_refuted",
    "C92_lost_refuted",
    "C92_wrong_refuted"
   ],
   "note": "Exceptions always get to the user; other components, their lengths and connections are not touched, no connection is lost, and new IETs can be made of the rows and the lengths of each component once the stack has been popped; an exception in decompose is one in a step (C92_where). But the decomposition object cannot be continued in general, refuted by three runs: the next decompose fails an assertion, or returns true although a part of the surface has been lost, or with wrong lengths in a component that had nothing to do with the exception."
  },
  {
   "property": "C93",
   "status": "partial",
   "theorems": [
    "C93_partial",
    "C93_known",
    "C93_race_refuted",
    "C93_value_refuted"
   ],
   "note": "Missing: calls of safInvariant() or boshernitzanNoPeriodicTrajectory() on an IET whose SAF invariant is not known yet. These write to the cache in a const member without synchronization: a data race is reachable (C93_race_refuted) and, even were the accesses atomic, one thread can get a partial sum (C93_value_refuted). Everything else is proved for all schedules, and C93_known says when the SAF invariant is known. Termination of the threads is C94_done."
  },
  {
   "property": "C94",
   "status": "partial",
   "theorems": [
    "C94_partial",
    "C94_done",
    "C94_refuted"
   ],
   "note": "Missing: IETs that have their lengths in common, like those that reduce and induce split off; refuted by a schedule in which zorichInduction claims a connection where there is none. With lengths of their own, everything is proved for all schedules."
  },
  {
   "property": "C95",
   "status": "proved",
   "theorems": [
    "C95_periodic",
    "C95_saddle",
    "C95_pair",
    "C95_swap",
    "C95_induce",
    "C95_steps",
    "C95_decompose",
    "C95_targets"
   ],
   "note": ""
  },
  {
   "property": "C96",
   "status": "proved",
   "theorems": [
    "C96_widths",
    "C96_cylinders",
    "C96_periodic",
    "C96_flags",
    "C96_injected",
    "C96_dense"
   ],
   "note": ""
  },
  {
   "property": "C97",
   "status": "proved",
   "theorems": [
    "C97_widths",
    "C97_decomposition",
    "C97_induced"
   ],
   "note": ""
  },
  {
   "property": "C98",
   "status": "proved",
   "theorems": [
    "C98_together",
    "C98_failure"
   ],
   "note": ""
  },
  {
   "property": "C99",
   "status": "partial",
   "theorems": [
    "C99_refuted"
   ],
   "note": "False: the constructor copies the pointer to the lengths of the IET, so two decompositions of one IET change each other's lengths (C99_refuted: the second one returns true with wrong widths and changes the widths that the first one reports). Independent if they have lengths of their own or no labels in common (C98)."
  },
  {
   "property": "C100",
   "status": "proved",
   "theorems": [
    "C100_inside",
    "C100_exact",
    "C100_same",
    "C100_eventually"
   ],
   "note": ""
  },
  {
   "property": "C101",
   "status": "proved",
   "theorems": [
    "C101_sides",
    "C101_walk",
    "C101_same",
    "C101_all"
   ],
   "note": ""
  },
  {
   "property": "C102",
   "status": "proved",
   "theorems": [
    "C102_right",
    "C102_columns",
    "C102_same"
   ],
   "note": ""
  },
  {
   "property": "C103",
   "status": "proved",
   "theorems": [
    "C103_period",
    "C103_time",
    "C103_same"
   ],
   "note": ""
  },
  {
   "property": "C104",
   "status": "proved",
   "theorems": [
    "C104_cylinders",
    "C104_inside",
    "C104_final",
    "C104_connection"
   ],
   "note": ""
  }
 ]
}