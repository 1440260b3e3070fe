c("C01","proved","C01_request_stream_roundtrip","all request histories, flush placements, fragmentations")
c("C02","proved","C02_response_stream_roundtrip_rc4","")
c("C03","proved","C03_response_stream_roundtrip_rc0","")
c("C04","partial","C04_rc1_roundtrip_refuted C04_rc1_fragmentation_refuted C04_rc1_first_read_partial","false of the code: WriteByte advances by 4, ReadByte reads into an empty slice; the part that holds is the first frame of a fresh connection when header and code byte arrive together")
c("C05","partial","C05_ping_reply_in_sync_refuted C05_ping_reply_in_sync_partial","false for RC4byte and RC1byte servers; holds for RC0byte and for readers given a documented ping frame")
c("C06","proved","C06_output_buffering_transparent C06_flush_leaves_nothing","")
c("C07","proved","C07_reads_fragmentation_independent C07_same_stream_same_reads","")
c("C08","partial","C08_truncation_no_phantom_frame_partial C08_truncation_error_refuted C08_truncated_body_panics_refuted","no phantom frame is proved; 'followed by an error' is false: a slice expression panics when part of a truncated item was read in the failing call")
c("C09","proved","C09_bodies_immutable","")
c("C10","proved","C10_short_response_protocol_error C10_short_response_protocol_error_rc1","")
c("C27","proved","C27_at_most_one_response","")
c("C28","proved","C28_failure_completes C28_no_deadlock","")
c("C29","proved","C29_responses_carry_identity","")
c("C30","proved","C30_performed_is_inert","")
c("C31","partial","C31_pending_exclusive C31_pending_results C31_inflight_exclusive_partial C31_nil_claims_partial C31_inflight_exclusive_refuted","SetPending is exclusive; SetInFly is not: SetInFly(bookmark) racing with SetInFly(nil) lets both return true. Proved: that pair is the only double claim.")
c("C32","proved","C32_bookmarks_reverse_order C32_bookmark_notified_once C32_nothing_after_responder","")
c("C33","proved","C33_rearm_stops_completion C33_rearmed_can_complete","")
c("C34","partial","C34_causes_distinguishable_partial C34_causes_distinguishable_refuted","false of the code: RcShutdown and RcCanceled are the same number; every other pair differs")
c("C67","proved","C67_sf_at_most_once C67_sf_only_claimer C67_route_only_new","at most once per re-arm to New")
c("C68","proved","C68_stat_callback_once","")
c("C35","proved","C35_deadline_order_never_early","")
c("C36","proved","C36_only_armed_timers_fire C36_stopped_timer_never_fires C36_fires_once_per_After C36_at_most_one_expiry_per_After","the first three for timers not re-armed while armed (the package's own discipline, timerSet), the last one for every history; Example C36_stop_misses_a_doubly_armed_timer shows why Stop needs it")
c("C37","proved","C37_live_entries_are_the_armed_timers C37_nothing_overdue_when_asleep C37_loop_drains","")
c("C38","proved","C38_timer_heap_never_corrupts C38_only_freed_cells_reused","32 bit index wrap-around (2^32 live timers) not modelled")
c("C69","partial","C69_no_lost_wakeup_partial C69_wakes_on_time_partial C69_lost_wakeup_refuted C69_timer_loop_never_panics","false of the code: the runtime timer may fire between Reset and Wait; proved for every schedule where it does not; the wake-up is then at most the age of the loop's look at the clock late, and not late at all if only sleeping and the Expires take time")
c("C11","proved","C11_varint_is_the_shortest_numeral C11_varint_roundtrip","")
c("C12","proved","C12_varint_decoding_total","")
c("C13","proved","C13_fixed_width_little_endian C13_fixed_width_roundtrip C13_messages_roundtrip","floats as bit patterns")
c("C14","partial","C14_slices_roundtrip_partial C14_float64_slices_refuted","false of the code for []float64: Float64sl stores element j at offset 4j; proved for every other element type")
c("C15","proved","C15_errors_are_sticky C15_a_failing_read_consumes_nothing","")
c("C16","partial","C16_no_panic_unless_negative_size_partial C16_wire_sizes_below_2_63_partial C16_huge_varint_size_refuted","false of the code: Slice/String panic on a negative size, which a varint size of 2^63 or more becomes; the exact set of panicking calls is proved")
c("C17","partial","C17_varint_size_exact_partial C17_varint_size_refuted","false of the code: one byte too small for numbers whose two leading groups are 1 and 0 (128, 16384, ...); exact characterisation proved")
c("C22","proved","C22_written_is_exact_and_immutable C22_written_never_changes","")
c("C23","proved","C23_growth_is_sufficient C23_reachable_writers_never_panic","int overflow of capacities above 2^62 not modelled")
c("C18","partial","C18_read_inverts_write_partial C18_ber_array_refuted C18_dropped_field_refuted C18_float64_slice_refuted C18_nil_pointer_refuted","proved by induction over the class [good] of types (CodecSpec.v); the refutations show the classes of types left out on purpose because the code does not round-trip them")
c("C19","partial","C19_write_follows_the_layout_partial C19_float64_slice_refuted C19_i64_prefix_refuted","proved for the types of [good]; false for []float64 behind a pointer-addressable value and for i64 prefixes")
c("C20","partial","C20_size_prefix_exact_partial C20_ber_128_refuted C20_struct_with_string_refuted C20_cnt_i8_refuted","proved for the types of [good]; refuted for ber numbers like 128, for structs that contain a string and for cnt(i8)")
c("C21","partial","C21_i64_prefix_refuted C21_other_prefixes_partial","false for every value: 4 bytes are written, 8 are read; the other prefixes round-trip")
c("C24","partial","C24_mismatch_ignored_refuted C24_mismatch_is_an_error_partial C24_right_size_reads_partial","false for ReadWithSize of a number; holds for size() tagged struct fields")
c("C25","partial","C25_number_slices_partial C25_structured_tail_partial C25_leftover_is_an_error C25_float64_refuted C25_tail_field_refuted","false for []float64 and for size(no) slices inside a struct")
c("C26","partial","C26_allocation_unbounded_refuted C26_bytes_within_input_partial C26_tail_within_input_partial","false for Read of slices of numbers; proved for strings, []byte and ReadTail")
c("C39","partial","C39_ids_follow_the_cycle_partial C39_ids_pairwise_different_partial C39_in_flight_ids_different C39_hostile_peer_refuted C39_wraparound_without_answers_refuted","proved for every peer that does not answer the frame to be sent next; false otherwise: such a response makes a frame carry id 0")
c("C40","proved","C40_answers_go_to_their_request C40_every_answered_request_completes","any peer that does not answer the frame to be sent next (see C39) for the first, polite and timely peers for the second")
c("C41","partial","C41_loss_fails_the_unanswered_partial C41_loss_is_an_io_error C41_duplicate_then_loss_refuted","proved for peers that answer each frame at most once and within 2^31 - 2^10 frames; a duplicated response followed by the loss of the connection crashes the client")
c("C42","partial","C42_unsolicited_completes_nothing_partial C42_unknown_id_refuted C42_duplicate_counted_refuted","false of the code: an unknown id panics; proved: a response that does not panic completes nothing")
c("C43","proved","C43_late_response_ignored","polite and timely peers")
c("C70","partial","C70_count_is_the_unanswered_partial C70_graceful_stop_refuted","false of the code when an id was taken for a request that completed before it was sent")
c("C44","partial","C44_codes_partial C44_nothing_internal_is_written C44_zero_replacement_refuted","proved except that a configured replacement by 0 is accepted and ignored")
c("C45","partial","C45_each_at_most_once C45_nothing_is_lost_partial C45_answering_terminates C45_reused_id_refuted","safety for every schedule; completeness while at most 128 are unanswered on the wire; with a reused id the second request's response is lost")
c("C46","partial","C46_only_a_double_close C46_no_panic_partial C46_close_terminates_partial C46_double_close_refuted","false of the code: out can be closed twice; proved for schedules without that race, and that no other panic exists")
c("C47","partial","C47_write_failure_cancels_partial C47_over_capacity_refuted C47_late_request_refuted","false with more than 128 requests in flight: the control loop blocks for ever; proved for at most 128; requests read after the cancellation are not canceled")
c("C48","proved","C48_at_most_once C48_backlog_order C48_nothing_is_lost C48_handing_over_terminates","all interleavings of any number of Sends, completions, the buffer goroutine, the worker and Stop; any channel capacity; sequentially consistent memory")
c("C49","partial","C49_send_after_stop_refuted C49_double_stop_refuted C49_panic_partial C49_without_stop_partial","false: for every capacity a Send begun after Stop ended panics once the channel is full; proved: no panic without Stop, and afterwards only a second Stop or a Send whose request went to the backlog panics")
c("C72","proved","C72_send_never_blocks","at most ten own steps; the critical sections of the buffer's mutex are single steps of the model")
c("C73","proved","C73_sending_order","")
c("C74","proved","C74_memory C74_settled","number of rows (of 1024 places) kept in the map")
c("C71","partial","C71_no_wait_partial C71_deadlock_refuted C71_backlog_unused C71_backlog_moves","false with 129 requests in flight; proved while at most 128 are unanswered on the wire; the backlog meant for this case is never used, although the code that empties it is right")
c("C50","proved","C50_one_response_per_request C50_results_returns C50_all_calls_end","all interleavings of the user goroutine, any number of completions and cancellers; sequentially consistent memory")
c("C51","partial","C51_each_once_then_end_partial C51_no_panic_partial C51_channel_ends_partial C51_close_twice_refuted C51_send_on_closed_refuted","false of the code: the channel can be closed twice, or sent to after it was closed, when a completion begins while Each fills it; proved: every response once, the end after all of them, in every run; no panic when no completion begins in that window")
c("C52","partial","C52_results_release_partial C52_each_releases_partial C52_each_of_completed_refuted","false of the code: Each of a multi-request whose requests are all completed never releases the context; proved for Results and for Each with a later completion")
c("C75","proved","C75_cancel_completes_all C75_cancel_returns C75_after_cancel_results_return","")
c("C76","partial","C76_no_crash_partial C76_cancel_crashes_refuted","false of the code: the entry of a request is loaded twice, and it can be cleared in between; proved when no step separates the two loads")
c("C53","partial","C53_registry_exact C53_waitall_waits_for_all C53_waitall_returns_partial C53_two_waiters_refuted C53_added_twice_refuted","registry exact for cancelers added once each; WaitAll returns when nothing is registered for one waiter at a time; false for two concurrent waiters (Signal instead of Broadcast) and for a canceler added twice")
c("C54","partial","C54_cancelled_or_removed_partial C54_cancel_reaches_all C54_overlapping_add_refuted C54_second_caller_refuted","false of the code for a registration that overlaps the cancellation, and for a second call of Cancel, which returns at once; proved for registrations that returned before the cancellation or began after it, and the call that ends the context")
c("C55","partial","C55_go_never_starts_refuted C55_child_registered_partial","false of the code for every context: Child never sets its result ok, so that the function is never started; the child is registered all the same")
c("C77","proved","C77_cancel_waits","the call that ends the context; any number of goroutines")
c("C78","partial","C78_cancel_after_go_refuted C78_cancel_returns_partial","false of the code: cancelAll spins until everything is removed, and nothing removes the child made by Go; proved: once nothing is registered the call returns after finitely many own steps")
c("C56","proved","C56_at_most_n C56_slots_come_back C56_settles","")
c("C57","partial","C57_origin C57_once C57_result_is_delivered_partial C57_panic C57_finished_is_answered C57_timeout_result_refuted","false of the code for the result code RcTimeout, which reaches the requester as RcInternalError; proved for every other code and for panics")
c("C58","partial","C58_queued_is_forgotten_refuted C58_taken_is_answered_partial","false of the code: Respond ignores a request that is not in flight, so everything queued at shutdown stays unanswered for ever; proved for what the loop had taken before it left")
c("C79","proved","C79_no_timeout_after_start","")
c("C80","proved","C80_start","")
c("C59","partial","C59_counts_partial C59_truth C59_queue_failed_only_if_none_partial C59_shrink_refuted","false of the code after the number of connections is reduced: a stopped connection is counted out twice; proved: what the endpoint was told is true in every execution, and its counters are exact as long as the number is not reduced")
c("C81","partial","C81_at_most_configured_partial C81_shrink_refuted","false after the number is reduced (consequence of C59); proved otherwise")
c("C82","partial","C82_stop_ends_refuted C82_dialing_hangs C82_busy_hangs C82_idle_stops_partial","false of the code: stopping a connection that is dialling or sending hangs the endpoint for good, in every execution that gets there; proved: a connection that waits for a request is stopped")
c("C83","partial","C83_refill_partial C83_refill_refuted","proved as long as the number of connections is not reduced; false otherwise")
c("C84","partial","C84_only_when_ended C84_flush_partial C84_refuted","proved: never early, at most once, and while the endpoint runs always possible; false once the endpoint has ended: with three connections the reports block for ever")
c("C85","proved","C85_no_panic","")
c("C60","partial","C60_count_partial C60_unambiguous C60_interface_keys C60_count_refuted","false of the code: an []interface{} whose element is a slice announces the slice's length, and nil pointers are announced but not written; proved for the keys of [keys_good] (SboxSpec.v)")
c("C61","partial","C61_layout C61_interface_layout C61_round_trip_partial C61_sized_round_trip_partial C61_round_trip_refuted","proved by induction over the types of [good] (SboxSpec.v), which are read back into any old value; false for ber numbers like 128 and for []float64")
c("C62","partial","C62_known C62_unknown_becomes_set C62_too_large_panics C62_unknown_rejected_refuted","every known kind is encoded as its number; false that unknown kinds are rejected: below 125 they silently become 'set'")
c("C63","partial","C63_layout C63_unambiguous_partial C63_nil_key_refuted","proved for the requests of [request_good]; false for a nil key, which is written as no tuple at all")
c("C64","partial","C64_empty_partial C64_empty_strings_partial C64_tail_refuted C64_string_tail_refuted C64_split_refuted C64_read_refuted","false of the code for every tail with an element that is not the empty string: tail panics, tailsplit drops the elements, and the reader does not see the tag; proved for empty tails and tails of empty strings")
c("C65","partial","C65_read_many_partial C65_read_first C65_read_first_none C65_read_first_any C65_counts C65_bad_tuple_refuted C65_short_response_refuted","proved for responses whose tuples decode; false otherwise: a tuple that does not decode is not reported and makes the following tuples zero, and a response of fewer than four bytes is one without tuples to ReadFirst")
c("C86","partial","C86_refuted C86_no_error_partial","false of the code: any number up to 2^32-1 announced in four bytes is allocated; proved: when no error is reported eight bytes of the response stand behind each element")
c("C66","proved","C66_only_unset C66_values C66_idempotent C66_empty_address","")
c("C87","partial","C87_used_partial C87_dial_timeout_refuted","false of the code for DialTimeout: connections always dial with the package's constant of five seconds; proved for the rest")
c("C88","proved","C88_every_call_is_bounded C88_no_deadline_without_timeout C88_nothing_left_over","time is an integer; the calls themselves and their times are arbitrary")
c("C89","partial","C89_no_service_after_stop C89_stops_listening C89_rejects_at_most_one C89_ends_partial C89_settles_partial","no service after Stop for any number of calls; the end proved for a single call of Stop (see C91 for more)")
c("C90","partial","C90_all_written C90_still_reads_refuted C90_goroutine_left_refuted","false of the code: a connection reports when its writer ends, so requests can still be read; and in every run with a connection at the time of Stop the second report of one of them blocks for ever; proved: nothing is accepted or written")
c("C91","partial","C91_waits_for_ever C91_second_stop_refuted C91_third_stop_refuted C91_first_stop_partial","false of the code: Stop sends with the lock held to a channel of capacity one; proved for a first call")
c("C92","proved","C92_once_between_stops C92_one_server C92_right_server","the field servers is read atomically, as on the hardware the library targets; the Go memory model does not promise it")
c("C93","partial","C93_no_stop_under_way_partial C93_refuted","false of the code while Stop is under way: the map is cleared only after every server was stopped, so Get still finds them; proved when no Stop is under way at the return")
c("C94","partial","C94_all_return_partial C94_bounded C94_panic_keeps_the_lock C94_empty_address_refuted C94_stopped_server_refuted","false of the code: Get of the empty address panics with the lock held, and Stop of an Auto panics with the lock held when one of its servers was already stopped by somebody else; proved without those two")
c("C95","partial","C95_configured C95_names_differ_partial C95_names_refuted","names differ only if the configuration has none; the dial timeout is C87")
c("C96","partial","C96_run_once_partial C96_crash_refuted C96_twice_refuted C96_lost_refuted","false of the code: AddChild between Run and the start of Loop crashes the process or runs the child twice, and of two concurrent AddChild one child may be forgotten; proved when AddChild is called by one goroutine at a time and not between Run and the start of Loop")
c("C97","partial","C97_all_stopped_partial C97_late_child_refuted C97_blocked_refuted","false of the code for a child added after Loop has ended, and when somebody else has stopped one of the children; proved without those two")
c("C98","partial","C98_stop_returns_partial C98_bounded C98_second_stop_refuted C98_not_run_refuted","false of the code: a second Stop panics, Stop of an endpoint that was not run never returns; proved for balancers that were run and are stopped once")
c("C99","partial","C99_shared C99_all_taken_partial C99_left_refuted","at most once and in order always; taken at all while the balancer is not stopped. A request accepted before Stop may stay in the queue for ever (refuted)")
c("C100","partial","C100_distinct_partial C100_no_panic_partial C100_after_done_refuted C100_two_goroutines_refuted","false of the code for a context used by two goroutines at once, or used after Done; proved for contexts (with the MultiRequests made from them) used by one goroutine at a time and not after Done")
c("C101","partial","C101_body_partial C101_ready_bodies C101_after_panic_refuted","false of the code: encoding that panics in one handler leaves bytes that the next request of another handler begins with; proved when no encoding panics; a value of type Body is always taken as it is")
c("C102","proved","C102_given_back C102_at_most_twice","")
c("C103","proved","C103_multi_ids C103_context_ids C103_sorted_results","contexts used by one goroutine at a time, as their documentation asks; sort.Sort by its contract")
c("C104","partial","C104_round_trip_partial C104_past_refuted C104_future_refuted C104_zero C104_order C104_add_sub C104_difference C104_forward_partial C104_forward_refuted","false of the code before 2010, where Time forgets the moment, and 292 years after it; proved between them")
c("C105","partial","C105_will_expire_partial C105_negative_refuted C105_remains C105_elapsed C105_set_back","WillExpire proved for arguments that are not negative; a large negative one overflows")
c("C106","partial","C106_not_early_partial C106_longest_refuted C106_sleep","false of the code when the clock plus the duration overflows (after about 276 years): such a timer fires at once; proved for all other histories, relative to the wall clock the code reads")
c("C107","partial","C107_read_returns_partial C107_read_tail_returns_partial C107_tame_partial C107_tame_tail_partial C107_negative_size_panics_refuted C107_tail_of_numbers_panics_refuted C107_tail_of_pointers_hangs_refuted","proved by induction over the types of [readable] and [tail_readable] (SafeSpec.v), and for more types (all but size(i64) and cnt(i64)) on bytes with no nine in a row above 127 ([tame], TameSpec.v); false outside: a negative size(ber), cnt(ber) or 64-bit size from the input panics, ReadTail of a structure ending in numbers panics, ReadTail of a slice of pointers never ends. Exhaustion of memory is C26")
c("C108","partial","C108_read_depends_on_what_it_consumes C108_truncation_is_detected_partial C108_truncation_is_rejected_partial C108_encodings_are_prefix_free_partial C108_ber_array_refuted","independence of what follows proved for all types; truncation for the types of [good], whose encodings are read back (C18), and refuted for arrays of ber numbers")
c("C109","proved","C109_complete_and_unique C109_frozen","one step is one access to the table, one operation of the mutex, or one nested call; reads of the table variable are atomic in the model (the code reads it without the lock)")
c("C110","proved","C110_fails_iff_unsupported C110_every_call_ends C110_bounded","what Fill does for a type is an arbitrary list of nested calls and panics")
c("C111","proved","C111_exact_and_kept C111_apart C111_own_panics C111_wait_free C111_values","one step is one primitive write, or one operation of the pool or the channel; the pool may return any Writer put into it, make a new one, or drop any. C111_values composes with the encoder of CodecModel.v, so it also says which bytes")
c("C112","proved","C112_as_alone C112_repeatable C112_wait_free","what a call does with its Readers is an arbitrary program of steps on them; one step is one such step, one operation of the pool, or one access to the cache. The programs themselves are CodecModel.v and SboxModel.v")
c("C113","partial","C113_codecs_partial C113_written_partial C113_values_partial C113_refuted","false in general: a type that contains itself gets another size in another order of first uses. Proved for all types in which whatever contains itself has a size that varies from its first field on (all types that do not contain themselves are such); and, for all types, of values the writer can handle after each of the histories")
c("C114","partial","C114_timers_keep_their_heap_partial C114_each_heap_is_a_heap_partial C114_only_armed_timers_fire_partial C114_stopped_timer_never_fires_partial C114_fires_once_per_After_partial C114_armed_timers_are_held_partial C114_due_timers_fire_partial C114_deadline_order_refuted C114_needs_serial_refuted C114_heaps_first_refuted","order of deadlines holds within one heap only (refuted across heaps). Everything else holds if no two Afters of one Timer run at once (refuted otherwise) and if heapN is read before heaps in heaps[i%heapN]; the Go specification leaves that order open, and in the other order After can panic (refuted)")
c("C115","partial","C115_layout_partial C115_layout_tail_partial C115_sizes_partial C115_interface_elements_refuted C115_pointer_receiver_refuted C115_size_of_pointer_refuted","false of the code for interfaces as elements of typed containers (written without their counts), pointer receivers by value and size() of pointers with methods (both panic); proved for all other values whose stored sizes are right where they are used (C115_sizes_partial says for which types they are)")
c("C116","partial","C116_read_back_partial C116_read_back_tail_partial C116_read_back_fitting_partial C116_pointer_under_size_refuted C116_nil_pointer_refuted C116_interface_refuted C116_count_setter_refuted","false of the code for size() of pointers to types of varying size (an error), pointers outside cnt() and size() read into nil (silently not read), interfaces that hold no pointer (panic), and ISetCount on the pointer of a type whose IRead has a self argument (the count is not read). Proved for every variable and all types without interfaces and with none of these (readable), types that contain themselves and types with methods included; and for values of all types, interfaces included, into variables that fit the value (ready)")
c("C117","partial","C117_same_value_partial C117_history_refuted","false in general: a type that contains itself may get size 0 in one order of first uses, and is then not read at all as a field. Proved, after any two histories, of what Write wrote for values of types the reader can handle after each")
c("C118","partial","C118_answers_come_from_the_handler_partial C118_handlers_see_what_was_sent_partial C118_client_does_not_crash_partial C118_every_answer_arrives_partial C118_rc4_dialled_refuted C118_request_of_type_ping_refuted","false of the code with RC4byte and pings: the answer to the ping sent when connecting has 16 bytes of which the client reads 12, and from then on answers go to wrong requests (refuted by a run). Proved for RC0byte, and for RC4byte without pings (RunWithConn, PingInterval 0), with the same RetCodeType at both ends, for request types other than Ping, and while no id comes round to a request not answered (2^32-2 frames); RC1byte is not covered, its frames are not read back (C04) A request whose type is that of pings is answered by the server connection and never reaches a handler (C118_request_of_type_ping_refuted).")
c("C119","partial","C119_moves_end_partial C119_round_trip_partial","the machine of C118. C119_moves_end_partial: any schedule of the library's own steps (flush, reads of any part of what was written in any pieces, delivery, the goroutines of the server connection) in which each step changes something is finite; the bound depends on the state only. C119_round_trip_partial: where no such step changes anything, and the write side of the client, the read side of the server and both connections are up, the requests read are the requests sent, in order, and each is complete at the client or not completed by its handler. Missing: as for C118, return codes of 4 bytes with pings and of 1 byte (refuted there and in C04, C05); more than 128 requests unanswered at a time (a server connection can then block for ever, C71)")
c("C120","partial","C120_timeout_is_kept_partial C120_comes_to_rest C120_no_deadlock_partial C120_rearmed_refuted C120_blocked_refuted","false of the code in two cases, both refuted by runs: a request re-armed by a bookmark after its timer has fired gets no second timer (timerSet stays true), and a Responder that blocks stops the loop of its timer heap and with it the timeouts of all requests on this heap. Proved for requests never re-armed when no Responder blocks and SetTimeout is not called twice at once on one request; C120_comes_to_rest (finitely many steps to rest) without these conditions")
c("C121","partial","C121_completed_requests_hold_no_timer_partial C121_late_refuted C121_twice_refuted","false of the code when the request completes between SetPending and SetTimeout inside Send (the timer is armed afterwards), and for two SetTimeout at once (both arm); both refuted by runs. Proved for timers armed before the completion, with SetTimeout not called twice at once on one request")
c("C122","proved","C122_no_timeout_before_its_time","the machine of C120, no condition on the schedule")
c("C123","partial","C123_cancel_completes_partial C123_at_rest_partial C123_answers C123_concurrent_refuted C123_on_its_way_refuted","false of the code when NewRequest on the same context overlaps Cancel: the state is read by AddCanceler before it registers, while Cancel sees nothing registered and returns; the request is then never cancelled (refuted by a run). Also, an answer that another goroutine is giving may arrive after Cancel returns (refuted by a run; the bookmark is unchained before the Responder is called). Proved for each request whose NewRequest is not under way at the moment the context is cancelled (it has returned before or begins later): at the return of Cancel it is answered or just being answered, and once no call is under way it is answered, once. C123_answers (at most one answer, and where it comes from) without conditions")
c("C124","partial","C124_whole_tree_partial C124_stuck_child_refuted C124_example","false of the code while a child of a child is never Done: Cancel waits inside the first child for ever and does not get to what was registered after it (refuted for all continuations of a run). Proved for all trees, once no call is under way any more, for what was not being made (NewRequest, Child) at the very moment its context was cancelled")
c("C125","proved","C125_dead_context","no condition on the schedule")
c("C126","proved","C126_results_of_a_round C126_results_returns C126_all_calls_end C126_each_after_results","all interleavings of the user goroutine, any number of completions and cancellers, any number of rounds")
c("C127","partial","C127_before_each_partial C127_request_after_each_refuted C127_results_after_each_refuted","false of the code: the response of a request made after the channel was closed is sent on the closed channel, which panics; and Results called after Each, with a response still to come, never returns (refuted for all continuations). Proved: everything up to the end of the channel of Each. A second call of Each is not modelled")
c("C128","partial","C128_registered_partial C128_second_round_refuted","false of the code from the second round on: Results removes the MultiRequest from its context, and nothing registers it again; proved for a MultiRequest used once")
c("C129","partial","C129_pending_partial C129_expiry C129_second_round_refuted","false of the code from the second round on: the end of the first stops the timer, timerSet keeps SetTimeout from arming it again and is handed to the requests, which then take no timeout from the service either; Results waits for ever. Proved for a MultiRequest used once; that the expiry completes everything is proved for all rounds")
c("C130","partial","C130_waited_partial C130_answered_before_refuted","false of the code when the last response comes before Results or Each is called: nobody stops the timer then; proved when Results had to wait")
c("C131","partial","C131_array C131_slice C131_single_partial C131_array_any C131_single_none_refuted","arrays and slices proved, for arrays also what is stored when the bytes are arbitrary; a single variable is false when the response has no tuple: 1 is reported as read, with an error")
c("C132","partial","C132_none_partial C132_pointers_refuted C132_slices_refuted C132_interfaces_refuted","false of the code: with a first tuple each of these destinations panics (the reader of the slice is used for its elements; elements of kind Interface have no case); only a response without tuples can be read. Slices of slices are modelled for numbers and strings only")
c("C133","partial","C133_struct C133_struct_sized C133_many C133_array_fewer_partial C133_array_refuted C133_array_crash_refuted","structs proved, alone, with a size and in a list of tuples; a tuple with fewer fields than an array is an error; false for the rest: a tuple with more fields than the array panics (the check is the wrong way round)")
c("C134","partial","C134_raw_partial C134_first_partial C134_many_partial C134_tame_raw_partial C134_tame_first_partial C134_tame_many_partial C134_string_refuted C134_many_refuted","proved for the types of [tuple_safe] (fields of constant size) on any bytes, and for strings, []byte and the structs and slices of them ([tuple_tame]) on bytes with no nine in a row above 127; false for strings and []byte: a length of 2^63 or more comes out negative, and the slice expression panics")
c("C135","partial","C135_narrow_is_nearest C135_narrow_overflow C135_same_bits C135_same_value C135_nan C135_signaling_refuted C135_field_partial C135_slice_partial C135_slice_refuted C135_values_partial","proved for everything but signaling NaNs, alone and in values of the types of C18; false for each signaling NaN, which comes out as a quiet one where reflect.Value.Float and SetFloat are used (the conversion of amd64) C135_narrow_is_nearest and C135_narrow_overflow check the conversion the model uses against IEEE 754: no float32 is nearer, ties go to even, infinite exactly from half a unit above the largest.")
c("C136","proved","C136_sorted_results","sort.Sort by its contract (swaps, and no element left before one it is greater than); for fewer than 2^32 requests; the runs of C126, i.e. without requests after Each")
c("C137","partial","C137_remote_function_partial C137_calls_return_partial C137_no_codes_refuted","composition of C118, C119 and C18, within their hypotheses; false without return codes on the wire, where a handler's failure is seen as success")
c("C138","partial","C138_reader C138_read2_refuted","Reader does; Read2 and ReadTail2 read the body into itself and return a Reader with nothing left")
c("C139","partial","C139_layout C139_values_partial C139_plain_partial C139_size_not_read_refuted C139_struct_refuted","for the types of C18; ReadWithSize is right for numbers, strings and []byte; for all other types it does not read the size, but takes it for the beginning of the value")
c("C140","partial","C140_done C140_message_partial","for the types and values for which Read inverts Write (C18)")
c("C141","partial","C141_alive C141_final C141_cause C141_child C141_child_of_expired_refuted","proved as stated, except that a context below one that has expired reports a cancellation (C141_child, refutation)")
c("C142","partial","C142_make_returns C142_cancel_returns_partial C142_cancel_answers_partial","Cancel, Expire and answers: provided Done has been called for all children, and not before Child returned; with a child that is still registered Cancel does not return (C124_stuck_child_refuted)")
c("C143","proved","C143_expires_once C143_expires_only_set C143_requests","")
c("C144","partial","C144_no_deadlock_partial C144_done_releases_partial C144_without_done_refuted C144_example","From every reachable state of the tree of contexts, whatever calls are under way, a schedule of their steps alone ends all of them, if Done has been called for all children; or if it is called for them then. False without Done for the children (C144_without_done_refuted: Cancel goes round for ever), hence partial. Possibility of ending, not fairness of the scheduler, is what is stated.")
c("C145","partial","C145_answered_partial C145_ends_partial C145_panic_refuted C145_write_error_refuted C145_reused_id_refuted C145_example","The listening server with all its connections in one machine. Answered: for connections on which no write failed and whose clients do not reuse an id before its answer; false otherwise (C145_write_error_refuted, C145_reused_id_refuted). Ends: for a single call of Stop, and if no connection that was told to stop had more than 128 requests and pings unanswered (C71, C91 show what happens otherwise). Stop may panic when a connection is idle (C145_panic_refuted, the race of C46).")
c("C146","partial","C146_completed_at_most_once C146_written_at_most_once C146_written_only_while_wanted C146_answers_go_to_their_request C146_endpoint_fails_the_unwritten C146_nothing_is_lost C146_endpoint C146_connection C146_no_panic_partial C146_failed_only_the_unanswered_partial C146_written_requests_partial C146_loss_completes_partial C146_lost_connection_partial C146_stop_abandons_requests_refuted","The endpoint with any number of connections and their request tables in one machine. At most once, order, and what the endpoint fails: proved for every peer. Answers: for peers that never use an id before it was sent. Panics, and completion when a connection ends: for peers that answer only what they were asked, each frame once and within 2^31 frames (otherwise C42). Completion at the end of a connection needs its report to be taken: false once the endpoint is stopped, with three connections the report of one never gets through and its requests wait for ever (C146_stop_abandons_requests_refuted).")
c("C147","partial","C147_handled_at_most_once_partial C147_answers_come_from_the_handler_partial C147_remote_function_partial C147_no_panic_partial C147_peers_behave_partial C147_requests_come_back_partial C147_return_codes_refuted","The endpoint of FleetModel.v in parallel with one PairModel.v per connection, synchronised on what passes over the connection. For connections without return codes on the wire (or with them, without pings); a dialled connection with return codes gives answers to the wrong requests (C147_return_codes_refuted, from C118). Provided no connection sends 2^31 - 2^10 frames while one waits for its answer.")
c("C148","partial","C148_kinds C148_good_answers_are_answers C148_giving_up_is_neither C148_code_tells_the_cause_partial C148_code_tells_the_cause_refuted C148_no_code_reads_as_valid","Which call it was cannot be told for Cancel and ShutDown: RcCanceled and RcShutdown are the same number (C148_code_tells_the_cause_refuted). On a connection without return codes every response is read as valid, whatever code the server gave it (C148_no_code_reads_as_valid); with four bytes the code is kept (C02), with one byte the stream is not read back at all (C04).")
c("C149","partial","C149_send_meets_no_half_made_endpoint C149_started_endpoint_takes_requests C149_started_once_partial C149_the_others_panic_partial C149_loop_gets_requests_partial C149_started_once_refuted","Proved for all schedules: a Send never meets a half made endpoint, and does not panic once a Run has returned. That one call starts it and the loop gets all requests holds when the calls of Run do not overlap; two that overlap both pass the check of Runned, start two loops, and requests in the first channel are lost (C149_started_once_refuted).")
c("C150","proved","C150_all_of_the_free_loop_holds C150_few_handlers_after_stop C150_one_request_after_stop C150_stop_returns_soon C150_stop_returns","The loop with its three nested selects, on top of ParModel.v. The bound n + 1 is met (Example C150_bound_is_met). What becomes of the requests still queued is C58.")
c("C151","partial","C151_writer_and_reader_agree C151_directives_are_obeyed C151_every_frame_can_be_asked_for C151_struct_tags C151_unknown_widths_are_refused_partial C151_unknown_words_are_refused_refuted C151_left_out_is_left_out_refuted","Agreement for every text and the meaning of every list of directives are proved in full. False of the code: that unknown words are refused - a blank after a comma silently drops a directive, and the closing bracket is not looked at (C151_unknown_words_are_refused_refuted); and that a field left out has no effect - size(no),skip makes the type be refused when a field follows (C151_left_out_is_left_out_refuted).")
c("C152","partial","C152_each_call_its_channel C152_no_answer_lost_or_doubled C152_no_send_blocks C152_calls_apart_partial C152_every_channel_ends_refuted","One channel per call, each answer on exactly one of them, and no blocking are proved for all schedules. That all channels are closed is false: once there is a second channel while an answer is missing, the first is never closed, and a second call that meets the last answer closes the channel twice and panics (C152_every_channel_ends_refuted). For calls that do not overlap an answer: no panic, and the last channel is closed (C152_calls_apart_partial).")
c("C153","proved","C153_sound_on_one_channel C153_run_starts_all C153_stop_ends_all C153_comes_to_rest","For trees in which no endpoint stands twice, made before Run or by AddChild to a balancer that has started its children (AddChild at other times is C96, C97); a leaf that runs takes its exit message at some time. Stop may return before the tree has ended (Example C153_stop_returns_early): the end is what it comes to, in at most 4 moves per endpoint.")
c("C154","partial","C154_no_answer_lost_or_doubled C154_no_send_blocks C154_its_own_or_a_later_one C154_its_own_channel_partial C154_its_own_channel_refuted","That answers are sent once and that no send blocks is proved for all schedules. That each call returns its own channel is false: Each evaluates w.ch after it unlocked, so two calls may both return the second channel and nobody is given the first, with the answers on it. Proved: a call returns its own channel or a later one, for all schedules; its own, when no call takes the mutex before the call ahead has returned.")
c("C155","partial","C155_one_gets_all C155_waits_for_ever C155_last_answer_wakes_one C155_calls_return_partial C155_calls_return_refuted","Who gets what is proved for all schedules. That every call returns is false: the last answer signals once, so of k goroutines that wait, k - 1 wait for ever (C155_last_answer_wakes_one with C155_waits_for_ever, for all schedules). Proved for calls one at a time.")
c("C156","proved","C156_ping_accepts_exactly_pings","For every byte stream and every fragmentation. A stream that ends inside the twelve bytes is never accepted; that it may panic there instead of failing is C08.")
