{
 "claims": [
  {
   "property": "C01",
   "status": "partial",
   "theorems": [
    "C01_round_trip_partial",
    "C01_exact_round_trip",
    "C01_double_refuted"
   ],
   "note": "Full round trip for all messages; double arguments come back rounded to single precision (refuted with 0.1)."
  },
  {
   "property": "C02",
   "status": "proved",
   "theorems": [
    "C02_size_and_prefix",
    "C02_query_then_write",
    "C02_unknown_tag"
   ],
   "note": ""
  },
  {
   "property": "C03",
   "status": "partial",
   "theorems": [
    "C03_extract_safe_partial",
    "C03_allocation_within",
    "C03_blob_length_refuted",
    "C03_argument_count_refuted"
   ],
   "note": "Safe for messages up to 2^29 bytes except blob lengths above 2^32-4; both exceptions are refuted with witnesses."
  },
  {
   "property": "C04",
   "status": "proved",
   "theorems": [
    "C04_round_trip",
    "C04_round_trip_empty",
    "C04_rejects_foreign_characters",
    "C04_rejects_anywhere",
    "C04_trailing_newline_refuted",
    "C04_rejects_dangling"
   ],
   "note": "White space after the padding is refused although it is skipped elsewhere (C04_trailing_newline_refuted)."
  },
  {
   "property": "C05",
   "status": "partial",
   "theorems": [
    "C05_expansion_terminates_partial",
    "C05_plain_values_partial",
    "C05_self_reference_refuted"
   ],
   "note": "Terminates, with a bound on the rounds, for definitions whose values lead to definitions of smaller rank. False in general: #define $A $A never ends."
  },
  {
   "property": "C06",
   "status": "partial",
   "theorems": [
    "C06_reader_position_partial",
    "C06_reports_located_partial",
    "C06_file_reports_located",
    "C06_byte_255_refuted"
   ],
   "note": "Proved for the reader under any operations and for everything the parser reports, for files and for texts in memory without byte 255; that byte is taken for the end of the text in memory and not counted (refuted)."
  },
  {
   "property": "C07",
   "status": "proved",
   "theorems": [
    "C07_round_trip",
    "C07_equals_in_value_refuted"
   ],
   "note": "Values without reserved sequences (line break, <, $, comment start, byte 255, trailing blank, # or = after a blank), not base64data; the condition on = is needed (refuted without)."
  },
  {
   "property": "C08",
   "status": "proved",
   "theorems": [
    "C08_include_depth",
    "C08_file_include_depth",
    "C08_limit_reported",
    "C08_below_limit_entered"
   ],
   "note": "Texts in memory without byte 255; files of any content."
  },
  {
   "property": "C09",
   "status": "proved",
   "theorems": [
    "C09_bounds",
    "C09_read_bounds",
    "C09_literal",
    "C09_above",
    "C09_below",
    "C09_other_text",
    "C09_huge_refuted"
   ],
   "note": "A number that does not fit 64 bits is read as the default even where the bound is enforced (C09_huge_refuted)."
  },
  {
   "property": "C10",
   "status": "partial",
   "theorems": [
    "C10_key",
    "C10_only_names",
    "C10_names_read_back",
    "C10_defined_partial",
    "C10_empty_refuted",
    "C10_octave_overflow_refuted"
   ],
   "note": "Exact for every text for which the call is defined; the empty text and octaves whose product with 12 overflows int are undefined behaviour (refuted)."
  },
  {
   "property": "C100",
   "status": "partial",
   "theorems": [
    "C100_life",
    "C100_frames",
    "C100_note",
    "C100_split",
    "C100_chain",
    "C100_split_refuted",
    "C100_rerate_refuted",
    "C100_cutoff",
    "C100_frequency_refuted"
   ],
   "note": "What a frame of a filter computes is a parameter. Refuted: dividing a block elsewhere while settings move changes the sound; setting the sample rate, even to the same value, disturbs playing notes (coefficients restart from zero); modulated frequencies of equalizers are not limited."
  },
  {
   "property": "C101",
   "status": "partial",
   "theorems": [
    "C101_buffers",
    "C101_local",
    "C101_split",
    "C101_bus",
    "C101_clear",
    "C101_linked_deaf",
    "C101_disto_wet_lost",
    "C101_split_refuted",
    "C101_clear_refuted",
    "C101_disto_refuted",
    "C101_width_refuted"
   ],
   "note": "Refuted for compressor and gate with linked channels (the gain hears the right channel only in the first frame of a block), for clearing compressor, gate and limiter (oversamplers keep their memory), for a distortion that is not the first effect of its bus (disto_wet is lost); the width effect takes its opcode for another unit."
  },
  {
   "property": "C102",
   "status": "proved",
   "theorems": [
    "C102_rectify",
    "C102_dynamics",
    "C102_limiter",
    "C102_silence",
    "C102_oversampling",
    "C102_gain",
    "C102_width",
    "C102_apan",
    "C102_limiter_refuted"
   ],
   "note": "Exact arithmetic; poles, log10 and pow are parameters with the bounds they have. C102_limiter_refuted is about something the property does not claim: the kernel of the limiter lets samples above full scale through (up to nearly twice after a clear)."
  },
  {
   "property": "C103",
   "status": "partial",
   "theorems": [
    "C103_name",
    "C103_refused",
    "C103_list",
    "C103_regions",
    "C103_once",
    "C103_interface",
    "C103_regions_refuted",
    "C103_twins_refuted"
   ],
   "note": "Missing, and false: eg&_freq_lfo& (and its controller variants) is refused or not depending on the LFOs of the region, so a region without LFOs makes the opcode be ignored in all later regions; of two equal regions the first keeps a filter that a refused fil&_veltrack_oncc& made, the second has none."
  },
  {
   "property": "C104",
   "status": "partial",
   "theorems": [
    "C104_format",
    "C104_audio",
    "C104_audio_refuted",
    "C104_whole",
    "C104_fractions",
    "C104_volume",
    "C104_loop",
    "C104_text",
    "C104_keys",
    "C104_keys_refuted"
   ],
   "note": "Proved for names and values that can be written on one line as they are, and for elements without onLoCC/onHiCC attributes in C104_keys. The reading and printing of numbers with fractions, their conversions to seconds and percent, and the reading of XML are parameters. False for file names with a space and a later equals sign (C104_audio_refuted: the name is cut and the rest becomes an opcode) and when the range of keys is on the group and the root note on the sample (C104_keys_refuted: the range is lost)."
  },
  {
   "property": "C105",
   "status": "partial",
   "theorems": [
    "C105_bits",
    "C105_held",
    "C105_round",
    "C105_taken",
    "C105_never_refuted"
   ],
   "note": "C105_bits and C105_held hold for any arithmetic; rounding and phases are in exact rational numbers, not in floats. False as one would expect it: when the phase reaches 1 exactly the sample is not taken, and with a step of 1/2 from 0 none ever is (C105_never_refuted)."
  },
  {
   "property": "C11",
   "status": "partial",
   "theorems": [
    "C11_numbers",
    "C11_injective",
    "C11_truncated_refuted",
    "C11_dropped_refuted"
   ],
   "note": "Proved for names without '&' whose numbers are below 65536; larger numbers are truncated or dropped (refuted). Lookup is by a 64 bit hash of the letters, whose collisions are not excluded."
  },
  {
   "property": "C12",
   "status": "partial",
   "theorems": [
    "C12_terminates",
    "C12_idempotent",
    "C12_opcode_idempotent_partial",
    "C12_nul_refuted"
   ],
   "note": "Names: proved for all texts. Whole opcodes: proved for names without NUL bytes, refuted with."
  },
  {
   "property": "C13",
   "status": "proved",
   "theorems": [
    "C13_event_lists_ordered",
    "C13_event_replaces",
    "C13_pitch_event_replaces",
    "C13_aftertouch_replaces",
    "C13_poly_aftertouch_replaces",
    "C13_note_on_events",
    "C13_flush_keeps_last"
   ],
   "note": "All public mutators of MidiState, any history with non-negative delays and controller numbers below 512."
  },
  {
   "property": "C14",
   "status": "partial",
   "theorems": [
    "C14_current_value",
    "C14_value_at_partial",
    "C14_value_at_next",
    "C14_between_events_refuted"
   ],
   "note": "Holds when an event sits exactly at the queried delay or none comes after it. Between two events the code returns the value of the next one (C14_between_events_refuted)."
  },
  {
   "property": "C15",
   "status": "partial",
   "theorems": [
    "C15_pressed_keys",
    "C15_active_notes_partial",
    "C15_active_notes_refuted",
    "C15_stray_note_off_refuted"
   ],
   "note": "The pressed-key flags are exact for all histories. The active-note counter is exact only for histories where keys alternate between on and off; repeated note-ons and stray note-offs make it wrong."
  },
  {
   "property": "C16",
   "status": "partial",
   "theorems": [
    "C16_cc_switch_exact",
    "C16_no_start_outside",
    "C16_note_controllers_refuted"
   ],
   "note": "Exact for every controller sent through the API (cc, hdcc, automation, pitch bend, aftertouch, reset); false for the controllers that notes generate (131-137, 140, 141), which are stored without updating the regions."
  },
  {
   "property": "C17",
   "status": "partial",
   "theorems": [
    "C17_round_robin",
    "C17_counter_overflow_refuted"
   ],
   "note": "Exact for up to 2^31-1 counted events and regions without keyswitches; the signed counter overflows after that."
  },
  {
   "property": "C18",
   "status": "partial",
   "theorems": [
    "C18_nothing_while_down",
    "C18_pedal_up_releases_all",
    "C18_conservation",
    "C18_all_released",
    "C18_capacity_refuted",
    "C18_reset_refuted",
    "C18_sostenuto_refuted"
   ],
   "note": "Proved for the sustain pedal alone, within the capacity of the delayed list; refuted beyond the capacity, across Reset All Controllers and for the sostenuto pedal."
  },
  {
   "property": "C19",
   "status": "partial",
   "theorems": [
    "C19_active_lists",
    "C19_active_exact",
    "C19_idle_region",
    "C19_disabled_refuted"
   ],
   "note": "Proved for every run when no region has an empty sample; refuted for a region with end=0, whose voice is not idle and in no list."
  },
  {
   "property": "C20",
   "status": "partial",
   "theorems": [
    "C20_limits",
    "C20_note_polyphony",
    "C20_zero_limit_refuted",
    "C20_self_mask_refuted",
    "C20_controller_refuted"
   ],
   "note": "Region, group, set and engine limits proved for every run (limit 0 acts as 1). Note polyphony proved for starts by notes, up to louder voices under self-masking; refuted for the rest."
  },
  {
   "property": "C21",
   "status": "partial",
   "theorems": [
    "C21_rings_partition",
    "C21_reset",
    "C21_add",
    "C21_walk_with_resets",
    "C21_note_on_ring",
    "C21_stolen_head_refuted"
   ],
   "note": "Rings stay disjoint and consistent in every run. The voices of one note-on form one ring when enough voices are idle and no off_by is used; refuted when the first voice of the event is stolen by the same event."
  },
  {
   "property": "C22",
   "status": "proved",
   "theorems": [
    "C22_bounded_depth",
    "C22_calls_return",
    "C22_depth",
    "C22_zero_limit_refuted"
   ],
   "note": "C22_bounded_depth: on every state satisfying the proved voice invariant and every instrument, the recursion depth of note-off dispatch through group choking is bounded by the number of voices still to be turned off. C22_calls_return: every sequence of valid calls from a loaded instrument returns, provided no polyphony limit is 0 when the envelope stealer is selected (C22_zero_limit_refuted: otherwise front() of an empty vector)."
  },
  {
   "property": "C23",
   "status": "partial",
   "theorems": [
    "C23_note_on_chokes",
    "C23_note_off_chokes",
    "C23_controller_chokes",
    "C23_same_key_refuted",
    "C23_release_voice_refuted",
    "C23_nested_refuted"
   ],
   "note": "Proved: when a region starts no voice it chokes is left and, unless choking started a release region, exactly those voices were turned off; unconditional for controllers. The claim as worded is false in three ways, each refuted with a witness: a second strike of the same key is exempt although it is another event, release voices are never choked, and a release region started by choking chokes further groups."
  },
  {
   "property": "C24",
   "status": "partial",
   "theorems": [
    "C24_leased_once",
    "C24_available_exactly",
    "C24_request",
    "C24_assign_leaks_refuted",
    "C24_resize_refuted"
   ],
   "note": "Proved for every history in which the buffer size is set only while no handle lives (asserted in the code); that a buffer is returned exactly when its handle dies needs that handles are moved only into empty ones; without these two conditions both halves are refuted."
  },
  {
   "property": "C25",
   "status": "proved",
   "theorems": [
    "C25_span_valid",
    "C25_never_missing",
    "C25_collected_unused",
    "C25_count"
   ],
   "note": "Every number of voices and jobs and every schedule, with sequentially consistent atomics (the default of std::atomic). Moves of the entries inside the hash maps, and clearing the pool, are not modelled."
  },
  {
   "property": "C26",
   "status": "partial",
   "theorems": [
    "C26_request",
    "C26_growing",
    "C26_largest_first",
    "C26_shrink_refuted",
    "C26_wrap_refuted",
    "C26_ram_refuted",
    "C26_ram_forgets_refuted",
    "C26_ram_sizes"
   ],
   "note": "Holds right after a request; afterwards when the preload size does not shrink, or when the first request has the largest offset, and the sums fit in 32 bits. False in general (four witnesses)."
  },
  {
   "property": "C27",
   "status": "proved",
   "theorems": [
    "C27_find",
    "C27_register",
    "C27_distinct",
    "C27_stable",
    "C27_connections_registered",
    "C27_connect",
    "C27_connect_refused"
   ],
   "note": "Any history of registrations and connections."
  },
  {
   "property": "C28",
   "status": "proved",
   "theorems": [
    "C28_evaluation_terminates",
    "C28_targets_computed_once",
    "C28_block_terminates",
    "C28_second_request"
   ],
   "note": "Every graph, cyclic or not: recursion depth at most the number of targets plus one."
  },
  {
   "property": "C29",
   "status": "partial",
   "theorems": [
    "C29_depth_key_determines_partial",
    "C29_depth_key_number_partial",
    "C29_depth_shared_refuted",
    "C29_all_lfos_shared_refuted"
   ],
   "note": "The depth key keeps only part of the target; two targets of one LFO share one depth. See DESIGN.md."
  },
  {
   "property": "C30",
   "status": "proved",
   "theorems": [
    "C30_ccmap_refines_map"
   ],
   "note": "Refinement of the controller map to a partial function."
  },
  {
   "property": "C31",
   "status": "proved",
   "theorems": [
    "C31_swapAndPopAll",
    "C31_swapAndPopFirst"
   ],
   "note": "Both helpers, any vector and predicate."
  },
  {
   "property": "C32",
   "status": "proved",
   "theorems": [
    "C32_bitarray_refines_set"
   ],
   "note": "Any sequence of operations refines a finite set."
  },
  {
   "property": "C33",
   "status": "partial",
   "theorems": [
    "C33_fills_block",
    "C33_dynamic_fills_block",
    "C33_in_range_partial",
    "C33_reset_sound",
    "C33_release_sound",
    "C33_off_sound",
    "C33_stages_in_order",
    "C33_ends",
    "C33_reset_falling",
    "C33_stays_falling",
    "C33_release_falling",
    "C33_silent_after_end",
    "C33_dynamic_delay_refuted",
    "C33_stuck_refuted",
    "C33_dynamic_negative_refuted",
    "C33_scheduled_negative_refuted"
   ],
   "note": "Filling of blocks, order of stages and termination after release are proved for any monotone rounding with small relative error. The range is proved for envelopes that do not follow controllers and, when the sustain level is (nearly) 0, whose release is not set ahead; both exceptions are refuted (values below 0). A dynamic envelope with a delay of more than one chunk never starts, and a release cancelled during the delay can never be given again."
  },
  {
   "property": "C34",
   "status": "partial",
   "theorems": [
    "C34_cut_partial",
    "C34_blocks_partial",
    "C34_release_time",
    "C34_decay_cut_refuted",
    "C34_delay_cut_refuted"
   ],
   "note": "Proved for cuts not exactly at the end of the delay and not in the decay within 0.001 of the sustain level; both exceptions are refuted. Envelopes that follow controllers are not covered (they are sampled per chunk from the start of the block)."
  },
  {
   "property": "C35",
   "status": "partial",
   "theorems": [
    "C35_never_outside",
    "C35_points",
    "C35_between",
    "C35_increasing",
    "C35_velocity_curve",
    "C35_predefined",
    "C35_rounding_refuted",
    "C35_squares"
   ],
   "note": "Reads inside the table and values at the defined points for any rounding, for curve headers and velocity curves; between neighbouring points the curve is the straight line for exact arithmetic. In binary32 a value can overshoot its neighbours by one unit (C35_rounding_refuted). Not-a-number arguments are not modelled."
  },
  {
   "property": "C36",
   "status": "partial",
   "theorems": [
    "C36_written_once",
    "C36_linear",
    "C36_reaches",
    "C36_between",
    "C36_quantised",
    "C36_quantised_early_refuted"
   ],
   "note": "Exact arithmetic, events with increasing delays. The quantised form can leave the level of an event before its delay (refuted). multiplicativeEnvelope is not modelled; nothing in the library uses it."
  },
  {
   "property": "C37",
   "status": "partial",
   "theorems": [
    "C37_query_independent",
    "C37_query_again",
    "C37_cycle_length",
    "C37_running",
    "C37_beat_in_bar",
    "C37_signature_keeps_time",
    "C37_beat_number",
    "C37_phase",
    "C37_query_mid_cycle_refuted",
    "C37_event_delay_refuted",
    "C37_clock_runs_ahead_refuted",
    "C37_stopped",
    "C37_bar",
    "C37_beat_number_negative",
    "C37_tempo",
    "C37_signature"
   ],
   "note": "For every rounding: filling at any increasing frames between the events of a cycle does not change the running time (C37_query_independent). With exact arithmetic: positions advance by time, position within bar in range, signature change keeps time. False when a query of the whole block precedes an event (C37_query_mid_cycle_refuted); through Synth, events precede beginCycle, so that delays count from the previous cycle (C37_event_delay_refuted, C37_clock_runs_ahead_refuted). Rounding of the double and float positions is not analysed in the exact part."
  },
  {
   "property": "C38",
   "status": "partial",
   "theorems": [
    "C38_wrap",
    "C38_wrap_float",
    "C38_step_index",
    "C38_lfo_in_range",
    "C38_wrap_rounding_refuted",
    "C38_phase_modulation_refuted"
   ],
   "note": "In [0,1) for exact arithmetic; in binary32 for phases that are not negative, so an oscillator without phase modulation never reads outside its steps. False for small negative phases in binary32: the result is 1 and the step read is one past the last (C38_wrap_rounding_refuted, C38_phase_modulation_refuted)."
  },
  {
   "property": "C39",
   "status": "partial",
   "theorems": [
    "C39_in_range_partial",
    "C39_in_bound",
    "C39_in_ends",
    "C39_in_monotone",
    "C39_out_range",
    "C39_out_ends",
    "C39_out_monotone",
    "C39_keys",
    "C39_gain",
    "C39_midi_values",
    "C39_gap_amplifies_refuted",
    "C39_end_amplifies_refuted"
   ],
   "note": "Exact arithmetic and any monotone square root. Fade-out is proved; fade-in is proved outside the last 1/127 of its range, where the gain goes up to 2 (refuted)."
  },
  {
   "property": "C40",
   "status": "partial",
   "theorems": [
    "C40_reads",
    "C40_taps",
    "C40_run",
    "C41_value",
    "C40_count_refuted",
    "C40_crossfade_refuted"
   ],
   "note": "For every sequence of blocks, with parameters that may change between blocks: every index read, also by the crossfade, is inside the sample or one frame before it, and every interpolator stays in the padding. In a loop the index never exceeds the loop end and is before its start only if no restart happened. False when count restarts a sample whose start is after its end, and for a loop count with crossfade when a controller moved the end of the sample before the loop. The source keeps its number of frames (fully loaded)."
  },
  {
   "property": "C41",
   "status": "partial",
   "theorems": [
    "C41_loop",
    "C41_loop_blocks",
    "C41_value",
    "C41_shot",
    "C41_voice",
    "C41_second_block_refuted",
    "C41_start_refuted",
    "C41_delay_refuted",
    "C41_loop_count_refuted",
    "C41_end_refuted"
   ],
   "note": "Positions of looping voices and one shots (with or without count) do not depend on the blocks once the voice has an age, and are the start plus the jumps modulo the loop. False at the start: the age is zero again after the first block, so the second repeats a frame; a voice delayed beyond its first block skips its first frame; a loop count reached at the first frame of a block is missed. Exact arithmetic, sums of a block up to 2^24."
  },
  {
   "property": "C42",
   "status": "partial",
   "theorems": [
    "C42_tracks",
    "C42_blocks",
    "C42_not_negative",
    "C42_bounded",
    "C42_rounding_refuted",
    "C42_clear"
   ],
   "note": "Independent of block boundaries for exact arithmetic; in binary32 the sum depends on the boundaries (C42_rounding_refuted). Never negative for any monotone rounding."
  },
  {
   "property": "C43",
   "status": "partial",
   "theorems": [
    "C43_terminates",
    "C43_headers",
    "C43_riff_walk",
    "C43_aiff_walk",
    "C43_data",
    "C43_round_trip",
    "C43_narrow_refuted",
    "C43_padding_refuted",
    "C43_flac_refuted"
   ],
   "note": "Opening ends within a number of steps bounded by the file length, for both readers and all contents, with a 64 bit long; every chunk found has its header in the file and the chunks are those of an independent walk over the file; the data of a chunk are the bytes at its offset, never more than asked for, than its length, or than the file holds; well formed RIFF files round trip. False with a 32 bit long (endless loop). A length of 2^32-1 is padded to 0, and FLAC blocks shorter than 12 bytes accept any chunk length."
  },
  {
   "property": "C44",
   "status": "partial",
   "theorems": [
    "C44_sw_last",
    "C44_sw_previous",
    "C44_sw_down",
    "C44_sw_up",
    "C44_combination_refuted",
    "C44_choke_refuted"
   ],
   "note": "sw_last and sw_previous for every history; sw_down and sw_up without chokes; the combination of several switches and choked keys are refuted."
  },
  {
   "property": "C45",
   "status": "partial",
   "theorems": [
    "C45_all_sound_off",
    "C45_delayed_release_refuted"
   ],
   "note": "All voices are idle and all lists empty afterwards; release samples delayed by the pedal survive and start later."
  },
  {
   "property": "C46",
   "status": "proved",
   "theorems": [
    "C46_lookup_by_id"
   ],
   "note": "Lookup by identifier returns exactly the object with that id."
  },
  {
   "property": "C47",
   "status": "partial",
   "theorems": [
    "C47_range_ordered_partial",
    "C47_operations_exact",
    "C47_range_shrink_refuted"
   ],
   "note": "ordered after every sequence of setStart, setEnd, expandTo, and of shrinkIfSmaller on intersecting intervals; exact member set of each operation; shrinkIfSmaller on a disjoint interval inverts the range (refuted)"
  },
  {
   "property": "C48",
   "status": "partial",
   "theorems": [
    "C48_no_overshoot",
    "C48_reaches",
    "C48_occurs",
    "C48_stuck_refuted",
    "C48_reset_to_target"
   ],
   "note": "No overshoot for any monotone rounding (binary32 included); the target is reached after the smoothing time for exact arithmetic only: in binary32 the smoother can stay short of the target for ever (C48_stuck_refuted). OnePole smoothing is not modelled."
  },
  {
   "property": "C49",
   "status": "proved",
   "theorems": [
    "C49_note_duration",
    "C49_after_rate_change"
   ],
   "note": "In samples; conversion to seconds is a float division."
  },
  {
   "property": "C50",
   "status": "partial",
   "theorems": [
    "C50_other_conditions",
    "C50_reset_refuted"
   ],
   "note": "The conditions follow the last message; Reset All Controllers recentres the pitch wheel without telling the regions."
  },
  {
   "property": "C51",
   "status": "partial",
   "theorems": [
    "C51_tempo_refuted",
    "C51_tempo_partial"
   ],
   "note": "False: the condition is evaluated only at load, with the reciprocal of the tempo. The partial theorem states what it does."
  },
  {
   "property": "C52",
   "status": "partial",
   "theorems": [
    "C52_pedals",
    "C52_start",
    "C52_cancel",
    "C52_one_shot",
    "C52_no_pedals",
    "C52_not_held_refuted",
    "C52_stuck_refuted",
    "C52_sostenuto_refuted"
   ],
   "note": "For every sequence of events, for regions with both switches on (the default) or both off. False when only one of sustain_sw and sostenuto_sw is on: each pedal is followed only if the switch of the other is on, so that notes are not held, or never released. C52_cancel is for envelopes without delay. The envelope itself is the subject of C33, C34 and C72."
  },
  {
   "property": "C53",
   "status": "proved",
   "theorems": [
    "C53_start_gets_voice"
   ],
   "note": ""
  },
  {
   "property": "C54",
   "status": "proved",
   "theorems": [
    "C54_blocks_complete"
   ],
   "note": ""
  },
  {
   "property": "C55",
   "status": "proved",
   "theorems": [
    "C55_parser_terminates"
   ],
   "note": "Definitions ranked as in C05; texts in memory without byte 255."
  },
  {
   "property": "C56",
   "status": "proved",
   "theorems": [
    "C56_between_controllers",
    "C56_from_normal",
    "C56_untrimmed_refuted",
    "C56_category",
    "C56_normal",
    "C56_opcode_category"
   ],
   "note": "For trimmed names; with a blank around the name the category is computed before trimming (C56_untrimmed_refuted)."
  },
  {
   "property": "C57",
   "status": "proved",
   "theorems": [
    "C57_aliases",
    "C57_cc"
   ],
   "note": ""
  },
  {
   "property": "C58",
   "status": "partial",
   "theorems": [
    "C58_controller_keys_distinct",
    "C58_numbered_keys_distinct_partial",
    "C58_kinds_distinct",
    "C58_numbers_cut_refuted"
   ],
   "note": "Numbers are cut to 8 bits."
  },
  {
   "property": "C59",
   "status": "partial",
   "theorems": [
    "C59_advanced_once_partial",
    "C59_others_balanced",
    "C59_shared_advanced_once",
    "C59_advanced_twice_refuted"
   ],
   "note": "Per-voice sources: proved when no source depends on one registered before it; refuted otherwise. Shared sources: proved."
  },
  {
   "property": "C60",
   "status": "proved",
   "theorems": [
    "C60_modulation_value",
    "C60_order_irrelevant",
    "C60_signals_exist",
    "C60_kinds",
    "C60_undefined"
   ],
   "note": "Over every commutative semiring; float rounding not modelled."
  },
  {
   "property": "C61",
   "status": "proved",
   "theorems": [
    "C61_explicit",
    "C61_implicit",
    "C61_otherwise"
   ],
   "note": ""
  },
  {
   "property": "C62",
   "status": "partial",
   "theorems": [
    "C62_blocks",
    "C62_delay",
    "C62_value",
    "C62_shape_range",
    "C62_modulated_delay_refuted",
    "C62_clocked_delay_refuted"
   ],
   "note": "Block boundaries for any rounding, after the delay or without modulation; values for exact arithmetic, without beat clock. False when a delay ends inside a block and the frequency or phase is modulated or follows the beat clock: the buffers are read from the start of the block (two refuted theorems). The sample-and-hold and random waves are not modelled."
  },
  {
   "property": "C63",
   "status": "partial",
   "theorems": [
    "C63_riff",
    "C63_riff_file",
    "C63_kept",
    "C63_aiff",
    "C63_nameless_refuted",
    "C63_empty_refuted"
   ],
   "note": "RIFF sampler chunks (from the bytes of the whole file to the loops) and AIFF instruments with named markers. False for AIFF markers without a name (division by zero in memory, failure in a stream), and the end of the kept loop wraps for a file without frames. Gain, detuning and ranges are not modelled."
  },
  {
   "property": "C64",
   "status": "partial",
   "theorems": [
    "C64_flatten",
    "C64_independent",
    "C64_independent_refuted"
   ],
   "note": "Flattening holds for every file and every handler of the remaining opcodes. Independence of earlier regions holds when a refused opcode is refused for every region; refuted without it. The curve, effect and midi headers, defines and includes are outside this model."
  },
  {
   "property": "C65",
   "status": "proved",
   "theorems": [
    "C65_sets",
    "C65_parent_found"
   ],
   "note": ""
  },
  {
   "property": "C66",
   "status": "partial",
   "theorems": [
    "C66_offsets",
    "C66_notes",
    "C66_notes_refuted",
    "C66_switch_range_refuted"
   ],
   "note": "Offsets up to 10^9; notes strictly inside the keyboard after the move. At the ends, and for sw_lolast and sw_hilast, refuted."
  },
  {
   "property": "C67",
   "status": "partial",
   "theorems": [
    "C67_activation",
    "C67_order",
    "C67_switch_lists",
    "C67_switching",
    "C67_current",
    "C67_momentary",
    "C67_default_switch",
    "C67_default_switch_refuted",
    "C67_removed_refuted",
    "C67_uses_switch_refuted"
   ],
   "note": "Switching is proved when no region was removed at load and the default switch is on the keyboard, which holds without note offsets; refuted otherwise. Regions that use sw_last together with sw_up or sw_down are left out of C67_switching and C67_momentary."
  },
  {
   "property": "C68",
   "status": "partial",
   "theorems": [
    "C68_preload",
    "C68_negative_refuted",
    "C68_controller_refuted"
   ],
   "note": "For offsets by controller that are not negative and name a controller below 512; refuted otherwise. Values up to 2^50, so that no sum overflows; controller products over rationals."
  },
  {
   "property": "C69",
   "status": "partial",
   "theorems": [
    "C69_loop",
    "C69_played",
    "C69_start_refuted",
    "C69_oneshot_refuted",
    "C69_beyond_refuted",
    "C69_modes"
   ],
   "note": "Proved for every list of opcodes and files below 2^31 frames, with 0 counted as no loop_start and the default as no loop_end, as the code does; the refuted theorems show what this costs. C69_played is for controllers at rest."
  },
  {
   "property": "C70",
   "status": "proved",
   "theorems": [
    "C70_keys",
    "C70_activation"
   ],
   "note": "Without note offsets; C66 gives their effect. Files whose loading meets undefined behaviour (an empty key value, an octave that overflows) are excluded by the premise that loading succeeds."
  },
  {
   "property": "C71",
   "status": "partial",
   "theorems": [
    "C71_blocks",
    "C71_free_running_refuted"
   ],
   "note": "Holds from every state and for any rounding unless the envelope is free-running (refuted: it then leaves the sustained stage only at a block boundary). Missing: dynamic envelopes, controllers that move during the run."
  },
  {
   "property": "C72",
   "status": "partial",
   "theorems": [
    "C72_attack",
    "C72_unsustained",
    "C72_release",
    "C72_cancel",
    "C72_cancel_pending",
    "C72_length",
    "C72_total",
    "C72_reaches",
    "C72_range",
    "C72_negative_refuted",
    "C72_delayed_release_refuted",
    "C72_ended_cancel_refuted"
   ],
   "note": "Attack, release and end for every rounding, points with times that are not negative, release after the delay. Refuted: negative times skip the level, a release within the delay comes late, taking back the release of an ended envelope brings its last level back. Missing: dynamic and free-running envelopes; the exact end level only without rounding."
  },
  {
   "property": "C73",
   "status": "partial",
   "theorems": [
    "C73_below",
    "C73_first",
    "C73_oldest",
    "C73_envelope",
    "C73_age",
    "C73_start_age",
    "C73_same_block_refuted",
    "C73_empty_refuted"
   ],
   "note": "For exact powers; C73_envelope assumes that voices equal in age, note, velocity and type are quiet together and that the rings are closed (C21). The age is zero at the end of the first block, so notes of one block cannot be told apart (C73_same_block_refuted). With a limit of zero and no voice, envelope_and_age reads the front of an empty list (C73_empty_refuted)."
  },
  {
   "property": "C74",
   "status": "partial",
   "theorems": [
    "C74_words",
    "C74_boolean"
   ],
   "note": "Words are compared by a 64-bit hash in the code: a word is accepted if its hash is that of a listed word, and the listed words have different hashes; that no other text has the same hash is not shown (it is false in principle)."
  },
  {
   "property": "C75",
   "status": "partial",
   "theorems": [
    "C75_values",
    "C75_adjacent",
    "C75_bend_gap_refuted",
    "C75_bend"
   ],
   "note": "Proved for velocity, controllers, both aftertouches and the crossfade bounds. False for the pitch wheel: the flag that fills the gap has no effect on normalized bends, so a value between hibend=0 and lobend=1 is in neither range."
  },
  {
   "property": "C76",
   "status": "partial",
   "theorems": [
    "C76_number",
    "C76_bounds",
    "C76_permissive",
    "C76_trailing_e_refuted"
   ],
   "note": "absl::SimpleAtof is assumed to round the exact value once; texts too large for a float are excluded. False: text after the number that starts with e makes it unreadable."
  },
  {
   "property": "C77",
   "status": "partial",
   "theorems": [
    "C77_shape",
    "C77_free_running",
    "C77_release",
    "C77_cancel",
    "C77_attack_time",
    "C77_is_released"
   ],
   "note": "For envelopes that are not dynamic and rendered in one call (C34 says which cuts change nothing). The lengths of attack and decay are given by the rounded iterates; C77_attack_time gives the attack without rounding."
  },
  {
   "property": "C78",
   "status": "partial",
   "theorems": [
    "C78_cc_starts"
   ],
   "note": "The answers about random values and the timer are inputs of the model; fewer than 2^31 counted events; voice allocation after the start is in C52, C53 and C73."
  },
  {
   "property": "C79",
   "status": "partial",
   "theorems": [
    "C79_reads",
    "C79_reads_total",
    "C79_stream",
    "C79_stream_truncated",
    "C79_noseek_truncated",
    "C79_reverse_truncated_silent",
    "C79_preload",
    "C79_reverse_truncated_refuted",
    "C79_load_from_ram_refuted"
   ],
   "note": "Proved for intact files in both directions and for files cut short forwards and with slow seeks; a file cut short and played backwards with fast seeks is silent, and its preloaded part is not reversed (refuted). The decoder is a parameter (whole frames, seeks that succeed)."
  },
  {
   "property": "C80",
   "status": "partial",
   "theorems": [
    "C80_gain1",
    "C80_gain",
    "C80_add",
    "C80_subtract",
    "C80_add1",
    "C80_subtract1",
    "C80_copy",
    "C80_multiplyAdd1",
    "C80_multiplyMul1",
    "C80_clampAll",
    "C80_divide",
    "C80_multiplyAdd",
    "C80_multiplyMul",
    "C80_gain_value",
    "C80_gain1_value",
    "C80_add_value",
    "C80_subtract_value",
    "C80_multiplyAdd_value",
    "C80_unchecked_refuted",
    "C80_clamp_nan_refuted"
   ],
   "note": "division, multiplyAdd and multiplyMul need the third buffer aligned like the output (refuted otherwise); clamping needs ordered samples (refuted for NaN). A compiler's own vectorisation or fused operations are outside."
  },
  {
   "property": "C81",
   "status": "partial",
   "theorems": [
    "C81_readInterleaved",
    "C81_writeInterleaved",
    "C81_ramp_scalar",
    "C81_ramp_vector",
    "C81_ramp_vector_refuted",
    "C81_sum_scalar",
    "C81_sum_vector",
    "C81_cumsum",
    "C81_diff",
    "C81_diff_in_place_refuted",
    "C81_allWithin"
   ],
   "note": "The plain loops, interleaving and the range check for any arithmetic; the vector versions of ramps, sums, running sums and differences for exact arithmetic only (with rounding the first value of a vector ramp can differ from the start value, refuted). Differences in place are not differences (refuted)."
  },
  {
   "property": "C82",
   "status": "proved",
   "theorems": [
    "C82_mix",
    "C82_plain"
   ],
   "note": "Addition of samples is assumed exact (associative, commutative, with zero), since the order of floating-point additions is not part of the statement. What voices and effects compute is a parameter; an effect must return as many frames as it gets. Rendering with an odd number of channels is outside: getStereoView then has no second channel."
  },
  {
   "property": "C83",
   "status": "proved",
   "theorems": [
    "C83_buses",
    "C83_outputs",
    "C83_bus_names"
   ],
   "note": "The effects made from the opcodes of a header are a parameter (EffectFactory); an unknown type gives an effect that does nothing, as in the code."
  },
  {
   "property": "C84",
   "status": "partial",
   "theorems": [
    "C84_included_files",
    "C84_same_path_twice_refuted"
   ],
   "note": "Included files as stated. The first file itself is not covered: when its path is relative it is taken relative to the directory left by the previous parse (refuted), which happens with loadSfzString twice."
  },
  {
   "property": "C85",
   "status": "partial",
   "theorems": [
    "C85_hermite",
    "C85_hermite_exact",
    "C85_bspline",
    "C85_linear",
    "C85_sinc_reads",
    "C85_float_rounding",
    "C85_sinc_offset",
    "C85_sinc_offset_refuted",
    "C85_sinc_table",
    "C85_sinc_table_refuted"
   ],
   "note": "Proved; what is refuted is that the sine table is read at the exact point and that its extra entries are filled. The weights are exact; the values of the window are a parameter."
  },
  {
   "property": "C86",
   "status": "partial",
   "theorems": [
    "C86_gains",
    "C86_law",
    "C86_power_refuted",
    "C86_width",
    "C86_block",
    "C86_vector",
    "C86_vector_centre_refuted"
   ],
   "note": "Proved; the sum of squares is refuted half way between two entries, the equal gains in the middle for the vector code. Only the position is rounded; gains and products are exact reals (axioms of Coq.Reals)."
  },
  {
   "property": "C87",
   "status": "proved",
   "theorems": [
    "C87_dispatch",
    "C87_one_case"
   ],
   "note": "The table of cases was extracted from the source; equality of the constants of two cases is a compile-time error in C++ and is excluded here by computation."
  },
  {
   "property": "C88",
   "status": "partial",
   "theorems": [
    "C88_reached",
    "C88_reachable",
    "C88_queries",
    "C88_added",
    "C88_envelopes_fit",
    "C88_cc_refuted",
    "C88_voice_refuted",
    "C88_point_refuted",
    "C88_filters_fit_refuted",
    "C88_equalizers_fit_refuted",
    "C88_controllers_refuted"
   ],
   "note": "Proved for numbers below 2^31 other than controller 512 and at most 256 voices; refuted otherwise, and for filters, equalizers and the controllers that are entered. The values answered and set are not modelled."
  },
  {
   "property": "C89",
   "status": "partial",
   "theorems": [
    "C89_velocity",
    "C89_velocity_monotone",
    "C89_velocity_points",
    "C89_veltrack_jump_refuted",
    "C89_veltrack_inverts_refuted",
    "C89_note_gain",
    "C89_keytrack",
    "C89_start",
    "C89_full",
    "C89_volume",
    "C89_pitch_keytrack",
    "C89_pitch_centre",
    "C89_pitch_velocity",
    "C89_controllers",
    "C89_decibels"
   ],
   "note": "Exact arithmetic. Refuted: amp_veltrack is not continuous at 0 (just below it the region is almost silent), and above 100 % (opcode or controllers, neither is clamped) soft notes get a negative gain. The bound of the gain needs a tracking within 100 % and a velocity outside the gap of C39."
  },
  {
   "property": "C90",
   "status": "partial",
   "theorems": [
    "C90_pitch",
    "C90_frequency",
    "C90_tuning_key",
    "C90_period",
    "C90_rising",
    "C90_equal",
    "C90_settings",
    "C90_order",
    "C90_read_scale",
    "C90_read_bounds",
    "C90_ratio_partial",
    "C90_ratio_refuted",
    "C90_crlf_refuted",
    "C90_last_line",
    "C90_tones",
    "C90_file"
   ],
   "note": "Real arithmetic; the number in a line of cents is a parameter; a tuning frequency of 0, which the setter lets through, is not covered by the theorems on frequencies. Refuted: a full stop in the text behind a ratio makes it cents, negative ratios are accepted, an empty line with two-character line ends makes the file unreadable."
  },
  {
   "property": "C91",
   "status": "partial",
   "theorems": [
    "C91_keys",
    "C91_monotone",
    "C91_curve",
    "C91_positions",
    "C91_load",
    "C91_amount_refuted",
    "C91_negative_refuted"
   ],
   "note": "Exact arithmetic on the decimals of the tables. Refuted: half of the amount stretches the outer keys further than all of it; below key 0 the ratio jumps."
  },
  {
   "property": "C92",
   "status": "partial",
   "theorems": [
    "C92_cases_distinct",
    "C92_safe",
    "C92_safe_all",
    "C92_safe_dropped_refuted",
    "C92_refers_partial",
    "C92_ampeg",
    "C92_controller_512_refuted",
    "C92_freq_lfo_refuted",
    "C92_no_filter_refuted",
    "C92_ampeg_cut_refuted"
   ],
   "note": "Values of opcodes are parameters (their reading is C74-C76). Missing, and false: a number above 2^32 is dropped and the list of numbers is then read beyond its end; seven maps take the controller 512; eg&_freq_lfo& counts the LFO from 0 in its check; fileg and fillfo address filter 1 even without filters; the number of the amplitude envelope is cut to 8 bits."
  },
  {
   "property": "C93",
   "status": "partial",
   "theorems": [
    "C93_unique",
    "C93_controllers",
    "C93_depths",
    "C93_filter_257_refuted",
    "C93_shared_depth_refuted"
   ],
   "note": "Names without hash collisions (C11), element numbers up to 256. False beyond: the number of a filter is cut to 8 bits in a target; the depth of two LFOs (or envelopes) on one parameter has one key, so that their controllers act on both."
  },
  {
   "property": "C94",
   "status": "partial",
   "theorems": [
    "C94_members",
    "C94_frame",
    "C94_swap",
    "C94_last",
    "C94_plain",
    "C94_bounds",
    "C94_hihdcc_refuted"
   ],
   "note": "For names without hash collisions and without numbers of 2^32 or more (C92). What a text means as a value is a parameter here; ValueModel and others have it. Refuted: start_hihdcc enters a condition, but does not make the region start on controllers as the three related opcodes do."
  },
  {
   "property": "C95",
   "status": "partial",
   "theorems": [
    "C95_buffers",
    "C95_no_leak",
    "C95_aligned",
    "C95_reported",
    "C95_size_refuted",
    "C95_aligned_end_refuted",
    "C95_reported_refuted"
   ],
   "note": "Proved for all histories of operations and all answers of the allocator. Refuted parts: a size within 30 elements of 2^64 wraps and is granted with no data; the aligned end is not the first aligned address and can precede the end when elements are larger than the alignment (nothing in the library uses it); the reported bytes are truncated to int from 2^31 on. Missing: allocation sizes are those of the requests, malloc overhead is not counted."
  },
  {
   "property": "C96",
   "status": "partial",
   "theorems": [
    "C96_independent",
    "C96_unsmoothed",
    "C96_events",
    "C96_bounded",
    "C96_arrives",
    "C96_new_rate",
    "C96_readings",
    "C96_starts",
    "C96_voices_refuted",
    "C96_start_refuted",
    "C96_poly_refuted",
    "C96_rate_refuted"
   ],
   "note": "Exact arithmetic. Refuted: smoothed controllers of voices share one smoother per region, so voices disturb each other; pitch bend, aftertouch and key distances with a curve start from a value the curve was applied to; the aftertouch of keys (controller 130) is made once per cycle, for the voice rendered first; a glide that is under way when the sample rate is lowered takes longer than the smoothing time."
  },
  {
   "property": "C97",
   "status": "partial",
   "theorems": [
    "C97_periodic",
    "C97_safe",
    "C97_position",
    "C97_float",
    "C97_phase_one_refuted",
    "C97_opcode_phase",
    "C97_message_refuted",
    "C97_unison"
   ],
   "note": "Proved for the padding, the lookup, the phase and the unison setup. Refuted: the message /region&/oscillator_phase sets phases that the oscillator reads outside of its storage with; the phase can be 1, which the comment of setPhase excludes (harmless). What the tables hold is in C98."
  },
  {
   "property": "C98",
   "status": "partial",
   "theorems": [
    "C98_partials",
    "C98_bright",
    "C98_permissivity_refuted",
    "C98_detune_refuted",
    "C98_waves",
    "C98_odd"
   ],
   "note": "Proved over the real numbers. Refuted: the 10 % of permissivity that Config.h states is exceeded near the limits of tables, and the table is chosen without the detune ratio, so detuned oscillators alias. Not modelled: the FFT code and waves from files."
  },
  {
   "property": "C99",
   "status": "partial",
   "theorems": [
    "C99_rates",
    "C99_filters",
    "C99_capacity",
    "C99_add_refuted",
    "C99_filters_refuted",
    "C99_follow",
    "C99_follow_refuted"
   ],
   "note": "Refuted for filters and equalizers: those that a load or a change of the number of voices creates run at 48000 Hz whatever the sample rate; for add_filter (add_eq alike), which gives no voice the new filter; for the power of voices after the number of voices changes."
  }
 ]
}
