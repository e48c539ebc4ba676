{
 "claims": [
  {
   "property": "C01",
   "status": "proved",
   "theorems": [
    "C01_identity_roundtrip",
    "C01_identity_injective",
    "C01_identity_never_free"
   ],
   "note": "All pid/tid pairs of C int range; packing, unpacking, injectivity, never 0."
  },
  {
   "property": "C02",
   "status": "partial",
   "theorems": [
    "C02_forked_child_identity_refuted",
    "C02_forked_child_identity_partial"
   ],
   "note": "Full statement refuted: the cached thread id survives fork, so a child locks under the parent's thread id. Holds when the forking thread had not cached its id."
  },
  {
   "property": "C03",
   "status": "proved",
   "theorems": [
    "C03_names_by_first_63_bytes",
    "C03_hash_collision_harmless"
   ],
   "note": "Equality of names by first 63 bytes, any hash function values."
  },
  {
   "property": "C04",
   "status": "proved",
   "theorems": [
    "C04_registry_is_a_map",
    "C04_registered_for_ever"
   ],
   "note": "Registry refines a finite map with capacity; names are never removed."
  },
  {
   "property": "C05",
   "status": "proved",
   "theorems": [
    "C05_mutual_exclusion",
    "C05_no_success_while_owned",
    "C05_word_names_owner"
   ],
   "note": "Every interleaving, any number of threads and calls, without deaths; with deaths see C11, C12."
  },
  {
   "property": "C06",
   "status": "proved",
   "theorems": [
    "C06_relock_never_blocks"
   ],
   "note": "Three own steps in every schedule."
  },
  {
   "property": "C07",
   "status": "partial",
   "theorems": [
    "C07_unlock_per_lock_refuted",
    "C07_first_unlock_releases_partial",
    "C07_kept_until_unlock"
   ],
   "note": "Full statement refuted: unlock loops until the count is 0, so one unlock releases all levels. Proved: the first unlock releases the mutex, and it is kept until then."
  },
  {
   "property": "C08",
   "status": "proved",
   "theorems": [
    "C08_nonowner_unlock_result",
    "C08_nonowner_unlock_changes_nothing"
   ],
   "note": "Results and effects for every interleaving of the unlock call; unknown names are covered by the registry (C04)."
  },
  {
   "property": "C09",
   "status": "proved",
   "theorems": [
    "C09_trylock_bounded_and_explained"
   ],
   "note": "Three own steps in every schedule; EBUSY only if another thread was recorded as owner at an instant during the call."
  },
  {
   "property": "C10",
   "status": "proved",
   "theorems": [
    "C10_pass_removes_dead_owner",
    "C10_free_means_count_zero",
    "C10_recovery_then_lock"
   ],
   "note": "Owner may have died at any program point; termination of the pass is shown for a pass running alone."
  },
  {
   "property": "C11",
   "status": "proved",
   "theorems": [
    "C11_live_owner_keeps_mutex",
    "C11_exclusion_with_deaths"
   ],
   "note": "For every schedule in which no thread exits in the window between reading and probing the owner."
  },
  {
   "property": "C12",
   "status": "partial",
   "theorems": [
    "C12_any_timing_refuted",
    "C12_any_timing_without_cond_wait_partial"
   ],
   "note": "Full statement refuted (release inside a condition wait is not covered by the registry guard). Proved for all schedules without condition waits."
  },
  {
   "property": "C13",
   "status": "proved",
   "theorems": [
    "C13_never_times_out_early",
    "C13_results"
   ],
   "note": "Expiry test of the library for all normalised start/limit values and clocks."
  },
  {
   "property": "C14",
   "status": "partial",
   "theorems": [
    "C14_expiry_test_exact",
    "C14_notices_expiry_refuted",
    "C14_notices_expiry_within_one_second_partial"
   ],
   "note": "Full statement refuted: SUB_TIMESPEC borrows one second too many, so expiry can be noticed late. Proved: never early, and late by less than one second plus polling."
  },
  {
   "property": "C15",
   "status": "proved",
   "theorems": [
    "C15_writer_excludes_all",
    "C15_word_counts_holders",
    "C15_free_after_all_released",
    "C15_reader_admitted",
    "C15_writer_admitted"
   ],
   "note": "Lock word machine, any number of threads; exclusion, exact counting, admission."
  },
  {
   "property": "C16",
   "status": "partial",
   "theorems": [
    "C16_match_iff_intersect",
    "C16_match_symmetric",
    "C16_match_reflexive",
    "C16_zero_length_refuted"
   ],
   "note": "Proved for positive lengths below 2^64; zero length refuted separately."
  },
  {
   "property": "C17",
   "status": "partial",
   "theorems": [
    "C17_wrapping_ranges_refuted",
    "C17_same_offset_partial"
   ],
   "note": "Full statement refuted: end address wraps modulo 2^64. Equal offsets always match."
  },
  {
   "property": "C18",
   "status": "proved",
   "theorems": [
    "C18_exclusion_equal_or_disjoint"
   ],
   "note": "Any number of threads, processes, files; deaths at any point except two two-instruction windows; descriptors are not closed while a lock call on them runs (both exceptions are shown to be necessary: C30, C66)."
  },
  {
   "property": "C19",
   "status": "partial",
   "theorems": [
    "C19_exclusion_any_ranges_refuted",
    "C19_same_range_refuted"
   ],
   "note": "Refuted, with a reader beside a writer and with two writers on the same range. The true part is C18."
  },
  {
   "property": "C20",
   "status": "proved",
   "theorems": [
    "C20_unlock_releases_own_hold"
   ],
   "note": "Every interleaving of the call; bad descriptors are C65."
  },
  {
   "property": "C21",
   "status": "proved",
   "theorems": [
    "C21_granted_can_be_released"
   ],
   "note": "Every interleaving, holder stays alive and keeps the descriptor open."
  },
  {
   "property": "C22",
   "status": "partial",
   "theorems": [
    "C22_islocked_whole_file_partial",
    "C22_islocked_quiet_partial",
    "C22_islocked_range_refuted"
   ],
   "note": "Full statement refuted: offset and length are ignored. Proved for the whole file: 1 while somebody keeps a lock on it, in every interleaving; and exact (1 iff somebody holds) in quiet states of executions without deaths and failing cleanups."
  },
  {
   "property": "C23",
   "status": "proved",
   "theorems": [
    "C23_failed_lock_keeps_holds",
    "C23_failed_lock_leaves_no_trace"
   ],
   "note": "Holds of others in every interleaving; all pools and lists for a call that runs undisturbed (with interference see C64)."
  },
  {
   "property": "C24",
   "status": "partial",
   "theorems": [
    "C24_no_resources_keeps_holds_partial",
    "C24_no_resources_no_trace_refuted"
   ],
   "note": "Full statement refuted: after ENOLCK from an exhausted range pool the file stays protected and is reported as locked for ever. Proved: no hold changes."
  },
  {
   "property": "C25",
   "status": "proved",
   "theorems": [
    "C25_no_entry_twice",
    "C25_nothing_lost",
    "C25_everything_returned"
   ],
   "note": "At most one place: every careful execution with deaths. Nothing lost and everything returned: default mode, no deaths, sufficient pools, failed calls only while somebody else stays registered on the range (C64 shows that this is necessary)."
  },
  {
   "property": "C26",
   "status": "partial",
   "theorems": [
    "C26_mode_change_loses_nothing_refuted",
    "C26_no_file_freed_partial",
    "C26_others_kept_partial"
   ],
   "note": "Refuted: entries kept under FREE_NO are lost when the process switches back to FREE_FD. Proved with deaths, failing calls and mode changes: no range entry is ever lost while no process uses FREE_FD, and file and locker entries are never lost in any mode."
  },
  {
   "property": "C27",
   "status": "proved",
   "theorems": [
    "C27_pass_releases",
    "C27_entry_returned"
   ],
   "note": "Pass interleaved with anything; the holder does not come back. A reopened descriptor on the same file is not gone."
  },
  {
   "property": "C28",
   "status": "partial",
   "theorems": [
    "C28_dead_thread_partial",
    "C28_dead_thread_refuted"
   ],
   "note": "Full statement refuted for ordinary descriptors. Proved for descriptor-less locks and for observers without permission to look into /proc."
  },
  {
   "property": "C29",
   "status": "proved",
   "theorems": [
    "C29_present_holder_keeps_lock",
    "C29_waiting_call_stays_registered"
   ],
   "note": "Holds along every path in which the holder stays present; waiting calls are registered in every reachable state."
  },
  {
   "property": "C30",
   "status": "partial",
   "theorems": [
    "C30_recovery_restores_partial",
    "C30_recovery_progress_refuted",
    "C30_recovery_exclusion_refuted"
   ],
   "note": "Full statement refuted in both parts (death between compare-and-swap and mark: waiting threads never get the lock; death between release and unmark: a writer beside a reader). Proved: recovery for deaths at all other points; exclusion at all other points is C18."
  },
  {
   "property": "C31",
   "status": "partial",
   "theorems": [
    "C31_no_fd_independent_refuted",
    "C31_disjoint_partial"
   ],
   "note": "Refuted: all descriptor-less ids share one lock space. Proved: a descriptor-less lock on bytes that no other descriptor-less lock conflicts with is granted, whatever the ids."
  },
  {
   "property": "C32",
   "status": "proved",
   "theorems": [
    "C32_guard_mutual_exclusion",
    "C32_guard_word_is_owner",
    "C32_no_robbery"
   ],
   "note": "Guard machine with deaths and takeovers at every instruction."
  },
  {
   "property": "C33",
   "status": "proved",
   "theorems": [
    "C33_dead_holder_does_not_block",
    "C33_word_names_no_outsider",
    "C33_unlock_frees",
    "C33_lock_gets_in"
   ],
   "note": "Bounded own steps when running alone, from every reachable state without a live thread inside."
  },
  {
   "property": "C34",
   "status": "partial",
   "theorems": [
    "C34_wait_counter_overflow_refuted",
    "C34_rwlock_wait_counter_overflow_refuted"
   ],
   "note": "Full statement refuted: the loop counter of the guard and of the rwlock wait is a signed int incremented for ever."
  },
  {
   "property": "C35",
   "status": "proved",
   "theorems": [
    "C35_insert_puts_first",
    "C35_retrieve_takes_first",
    "C35_retrieve_empty",
    "C35_cutoff_removes_exactly",
    "C35_cutoff_absent_fails_without_change",
    "C35_find_first",
    "C35_rfind_last",
    "C35_contents_unique"
   ],
   "note": "Pointer-level lists: insert, retrieve, cutoff, find, rfind against sequences; all reachable heaps."
  },
  {
   "property": "C36",
   "status": "proved",
   "theorems": [
    "C36_insert_crash",
    "C36_release_crash",
    "C36_acquire_crash"
   ],
   "note": "Crash after every pointer write of insert, of moving an entry to the free list and of taking it from there; an entry can be lost but lists stay well formed."
  },
  {
   "property": "C37",
   "status": "proved",
   "theorems": [
    "C37_insert_position_independent",
    "C37_retrieve_position_independent",
    "C37_cutoff_position_independent",
    "C37_find_position_independent",
    "C37_rfind_position_independent"
   ],
   "note": "Lists written through one mapping base and read through another."
  },
  {
   "property": "C38",
   "status": "partial",
   "theorems": [
    "C38_signal_lost_to_failing_wait_refuted",
    "C38_signal_wakes_longest_partial",
    "C38_longest_waiter_is_blocked",
    "C38_woken_stays_woken"
   ],
   "note": "Full statement refuted: the signal can choose the entry of a wait call that is about to fail because its caller does not own the mutex. Proved when waiters own the mutex they pass (deaths, timeouts, recoveries allowed); the chosen call has released the mutex if any counted call has."
  },
  {
   "property": "C39",
   "status": "proved",
   "theorems": [
    "C39_broadcast_wakes_all",
    "C39_broadcast_wakes_all_owners"
   ],
   "note": "All schedules; a call that itself fails meanwhile (not the owner) may withdraw before it is reached."
  },
  {
   "property": "C40",
   "status": "proved",
   "theorems": [
    "C40_no_lost_wakeup"
   ],
   "note": "No deaths (see C69); all waits on the condition pass the mutex the signaller owns."
  },
  {
   "property": "C41",
   "status": "proved",
   "theorems": [
    "C41_success_owns_mutex"
   ],
   "note": "All schedules with deaths and recoveries."
  },
  {
   "property": "C42",
   "status": "partial",
   "theorems": [
    "C42_timeout_without_mutex_refuted",
    "C42_timeout_partial"
   ],
   "note": "Full statement refuted: the second lock uses the same timeout and its failure is reported as ETIMEDOUT without the mutex. Proved: then another thread owned the mutex during the call."
  },
  {
   "property": "C43",
   "status": "partial",
   "theorems": [
    "C43_signal_swallowed_refuted",
    "C43_signal_reaches_waiter_partial"
   ],
   "note": "Full statement refuted: a call that has timed out and waits for the mutex consumes the signal. Proved when no timeout expires."
  },
  {
   "property": "C44",
   "status": "proved",
   "theorems": [
    "C44_idle_thread_has_no_entry",
    "C44_entries_not_shared",
    "C44_waiting_call_has_its_entry",
    "C44_all_entries_return",
    "C44_failed_wait_leaves_mutexes"
   ],
   "note": "All schedules; complete return of the pool without deaths."
  },
  {
   "property": "C45",
   "status": "proved",
   "theorems": [
    "C45_layout"
   ],
   "note": "All permitted counts; arithmetic with 64-bit wrap-around as in the code."
  },
  {
   "property": "C46",
   "status": "proved",
   "theorems": [
    "C46_initial_pools"
   ],
   "note": "All permitted counts and all mapping addresses."
  },
  {
   "property": "C47",
   "status": "partial",
   "theorems": [
    "C47_no_reinit_refuted",
    "C47_no_reinit_partial"
   ],
   "note": "Full statement refuted: two threads of a process attaching at the same time (RETRY modes) can leave the process attached without its lock. Proved when the calls of one process do not overlap with its own initialisation; deaths, failing system calls, detaching and any number of processes allowed."
  },
  {
   "property": "C48",
   "status": "partial",
   "theorems": [
    "C48_forked_child_refuted",
    "C48_forked_child_partial"
   ],
   "note": "Refuted: fcntl locks are not inherited. Proved: with forks around, a process that attached itself is never caught."
  },
  {
   "property": "C49",
   "status": "partial",
   "theorems": [
    "C49_concurrent_start_refuted",
    "C49_somebody_attaches_partial",
    "C49_undisturbed_start_partial"
   ],
   "note": "Full statement refuted: the creator of the file loses the write lock to a second process and gives up. Proved: somebody is attached to a complete file when all starts have returned; an undisturbed start succeeds within ten own steps."
  },
  {
   "property": "C50",
   "status": "partial",
   "theorems": [
    "C50_counts_in_range",
    "C50_valid_taken",
    "C50_invalid_kept_refuted",
    "C50_invalid_kept_partial",
    "C50_modes",
    "C50_umask_refuted",
    "C50_umask_text_refuted",
    "C50_umask_partial",
    "C50_no_crash_refuted",
    "C50_no_crash_partial",
    "C50_check_count"
   ],
   "note": "Range of the counts, mode words and check count proved for every environment. Refuted: 2^32+128 is cut to 128 and taken; the umask 0777 is refused and text that is no number sets it to 0; a directory above the root is undefined behaviour. True parts are the _partial theorems (number a string begins with, within int)."
  },
  {
   "property": "C51",
   "status": "partial",
   "theorems": [
    "C51_valid_accepted_refuted",
    "C51_only_valid_refuted",
    "C51_accepts_partial",
    "C51_rejected_refuted",
    "C51_rejected_partial",
    "C51_given_set",
    "C51_defaults_refuted",
    "C51_defaults_partial"
   ],
   "note": "Refuted: the waiter count is checked when the locker count is given; a late failure leaves the process detached; condition and waiter counts are not reset to defaults. Proved: exact acceptance when both or none of locker and waiter count are given, given counts are set, other defaults are reset."
  },
  {
   "property": "C52",
   "status": "proved",
   "theorems": [
    "C52_no_mapping",
    "C52_is_locked",
    "C52_no_name",
    "C52_attached",
    "C52_no_file",
    "C52_functions"
   ],
   "note": "Proved for calls whose names are given; a missing name is EINVAL in every mode."
  },
  {
   "property": "C53",
   "status": "proved",
   "theorems": [
    "C53_setters",
    "C53_check_count"
   ],
   "note": "Proved for every reachable configuration (the loop count is never below the minimum, so switching to the high mode does not change it)."
  },
  {
   "property": "C54",
   "status": "partial",
   "theorems": [
    "C54_normalises_refuted",
    "C54_normalises_partial",
    "C54_every_path_partial",
    "C54_relative_partial"
   ],
   "note": "Refuted: \"/a/..\" becomes the empty string. Proved for every other absolute path; relative paths reduce to absolute ones."
  },
  {
   "property": "C55",
   "status": "partial",
   "theorems": [
    "C55_above_root_refuted",
    "C55_only_above_root_partial"
   ],
   "note": "Refuted: the emptiness test looks at the wrong list and an element is removed from an empty vector (undefined behaviour). Proved: exactly the paths that climb above the root do so, no other absolute path is refused."
  },
  {
   "property": "C56",
   "status": "proved",
   "theorems": [
    "C56_pread",
    "C56_pwrite",
    "C56_fill_zero"
   ],
   "note": "Positional read, write and zero filling over every row of system answers that the system can give; sizes below 2^63."
  },
  {
   "property": "C57",
   "status": "partial",
   "theorems": [
    "C57_only_read_refuted",
    "C57_only_read_partial"
   ],
   "note": "Refuted: after EAGAIN the caller gets a page of uninitialised memory. Proved: the delivered bytes are the start of the buffer, exactly one page follows after EAGAIN and nothing otherwise."
  },
  {
   "property": "C58",
   "status": "proved",
   "theorems": [
    "C58_scan",
    "C58_inside"
   ],
   "note": "Every row of well-formed records of any length, and memory safety for arbitrary bytes."
  },
  {
   "property": "C59",
   "status": "partial",
   "theorems": [
    "C59_key_order",
    "C59_transparent_refuted",
    "C59_live_as_dead_refuted",
    "C59_transparent_partial"
   ],
   "note": "Refuted: a question about a thread and one about its lock without descriptor share a cache entry (dead taken for running and running taken for dead). Proved for every pass that does not put both kinds of question about one thread; the key order is a strict total order."
  },
  {
   "property": "C60",
   "status": "proved",
   "theorems": [
    "C60_four_values",
    "C60_exit_again"
   ],
   "note": "Four values for every schedule with forks; an exit request and the end of the worker stand under repeated exit requests when no Run or Stop is past its test (needed, see C84)."
  },
  {
   "property": "C61",
   "status": "partial",
   "theorems": [
    "C61_nested",
    "C61_balanced_partial",
    "C61_waiting_partial",
    "C61_balanced_refuted"
   ],
   "note": "Nested locking needs no shared lock: proved for equal or disjoint ranges. Balance proved whenever held locks can be released; refuted when the shared layer refuses to release a held lock (RawWriteLock ignores that answer)."
  },
  {
   "property": "C62",
   "status": "partial",
   "theorems": [
    "C62_refuted",
    "C62_partial"
   ],
   "note": "Refuted for ranges that overlap without containment: the second object is taken as covered. Proved for families of equal or disjoint ranges."
  },
  {
   "property": "C63",
   "status": "partial",
   "theorems": [
    "C63_tryrdlock_spurious_failure_refuted",
    "C63_trywrlock_failure_explained_partial",
    "C63_tryrdlock_failure_explained_partial",
    "C63_results"
   ],
   "note": "Full statement refuted for try-read-lock (spurious EBUSY); the failure reasons that do exist are proved, and which results each kind of call can return."
  },
  {
   "property": "C64",
   "status": "partial",
   "theorems": [
    "C64_failing_calls_lose_nothing_refuted",
    "C64_others_kept_partial"
   ],
   "note": "Refuted for range entries (see C25 for when they return). Proved for file and locker entries: never lost."
  },
  {
   "property": "C65",
   "status": "partial",
   "theorems": [
    "C65_success_grants_partial",
    "C65_success_grants_refuted"
   ],
   "note": "Refuted for bad descriptors in the default nomap mode; proved for open descriptors in every interleaving."
  },
  {
   "property": "C66",
   "status": "partial",
   "theorems": [
    "C66_descriptor_closed_during_call_refuted"
   ],
   "note": "Refuted: two writers on the same range. True part: C18."
  },
  {
   "property": "C67",
   "status": "partial",
   "theorems": [
    "C67_pass_clears_islocked_refuted",
    "C67_recovered_partial"
   ],
   "note": "Refuted: a crash right after the file entry was taken leaves it protected for ever. Proved when nobody died while holding the guard of the file list and the pools sufficed: after one pass no entry of a file without running holders is left and islocked answers 0."
  },
  {
   "property": "C68",
   "status": "partial",
   "theorems": [
    "C68_death_loses_nothing_refuted",
    "C68_others_kept_partial",
    "C68_other_modes_partial"
   ],
   "note": "Refuted: crash in unlock before the range entry is freed, then another unlock on the file. Proved: file and locker entries are never lost, and range entries are not lost while no process uses FREE_FD."
  },
  {
   "property": "C69",
   "status": "partial",
   "theorems": [
    "C69_signal_to_dead_waiter_refuted",
    "C69_live_waiters_partial"
   ],
   "note": "Full statement refuted. Proved when the list holds no entry of a dead thread, which C72 establishes."
  },
  {
   "property": "C70",
   "status": "proved",
   "theorems": [
    "C70_no_spurious_wakeup",
    "C70_results_of_wait"
   ],
   "note": "All schedules."
  },
  {
   "property": "C71",
   "status": "proved",
   "theorems": [
    "C71_woken_waiter_returns"
   ],
   "note": "Six own steps."
  },
  {
   "property": "C72",
   "status": "proved",
   "theorems": [
    "C72_recovery_clears_dead_waiters"
   ],
   "note": "Pass interleaved with anything."
  },
  {
   "property": "C73",
   "status": "partial",
   "theorems": [
    "C73_joins_complete_refuted",
    "C73_joins_complete_partial"
   ],
   "note": "Refuted: the initialising process dies and a waiting one gets the read lock. Proved without deaths and failing system calls, forks and detaching allowed."
  },
  {
   "property": "C74",
   "status": "partial",
   "theorems": [
    "C74_no_crash_refuted",
    "C74_crash_after_death_refuted",
    "C74_no_crash_partial",
    "C74_lock_call_partial"
   ],
   "note": "Refuted in two ways: CheckAttach tests the descriptor and not the mapping; a waiting process maps an empty file after a crash. Proved without overlap, deaths and failing system calls; lock calls alone also with deaths and failures."
  },
  {
   "property": "C75",
   "status": "partial",
   "theorems": [
    "C75_nothing_else_changes",
    "C75_work_directory_refuted",
    "C75_work_directory_partial",
    "C75_makes_it"
   ],
   "note": "Refuted: the directory test looks at one bit of the mode, so a socket or block device passes for a directory. Proved without those; the frame part (nothing else changes, umask restored) holds always."
  },
  {
   "property": "C76",
   "status": "partial",
   "theorems": [
    "C76_layout_refuted",
    "C76_layout_partial"
   ],
   "note": "Refuted: 2^59 waiters pass the check and need 2^64 = 0 bytes. Proved when the waiter count is within its range or not given."
  },
  {
   "property": "C77",
   "status": "partial",
   "theorems": [
    "C77_retry_refuted",
    "C77_retry_partial"
   ],
   "note": "Refuted: with FLCKAUTOINIT=NO the path is never set. Proved once a start has got as far as the working directory."
  },
  {
   "property": "C78",
   "status": "proved",
   "theorems": [
    "C78_file_in_directory",
    "C78_name",
    "C78_directory_given",
    "C78_directory_preset"
   ],
   "note": "Name: invariant over all call sequences. Directory: for every content of the file system in which the directories on the way are there or can be made (C75)."
  },
  {
   "property": "C79",
   "status": "partial",
   "theorems": [
    "C79_spurious_refuted",
    "C79_missed_refuted",
    "C79_reports_partial"
   ],
   "note": "Refuted both ways: stale heap memory taken for an event after EAGAIN; a page of events dropped when a later read fails. Proved: nothing missed unless reading gave up, nothing made up without EAGAIN, no load outside the buffer."
  },
  {
   "property": "C80",
   "status": "partial",
   "theorems": [
    "C80_write_spins",
    "C80_returns_refuted",
    "C80_returns_partial"
   ],
   "note": "Refuted: counts of 0 keep the write loops going for ever. Proved: the read returns; writes return when no answer is 0."
  },
  {
   "property": "C81",
   "status": "partial",
   "theorems": [
    "C81_interrupted_refuted",
    "C81_interrupted_partial"
   ],
   "note": "Refuted: EINTR makes the positional helpers fail. Proved: the event reader resumes; the others report failure, never a short success."
  },
  {
   "property": "C82",
   "status": "partial",
   "theorems": [
    "C82_page_size_refuted",
    "C82_page_size_partial"
   ],
   "note": "Refuted for 64 KiB pages: the page size is always 4096."
  },
  {
   "property": "C83",
   "status": "proved",
   "theorems": [
    "C83_probe"
   ],
   "note": "All process tables."
  },
  {
   "property": "C84",
   "status": "partial",
   "theorems": [
    "C84_exit_stands_refuted",
    "C84_exit_stands_partial"
   ],
   "note": "Refuted: Run (or Stop) past its test overwrites the exit request. Proved from every reachable state in which no Run or Stop is past its test and no fork handler is at work, whatever is called afterwards."
  },
  {
   "property": "C85",
   "status": "partial",
   "theorems": [
    "C85_deleted_object_refuted",
    "C85_deleted_object_partial"
   ],
   "note": "Refuted with two fork handlers (re-initialised library): the deletion ends only the second worker of the child. Proved with at most one handler, one call at a time, forks at any moment, failing thread creation and worker set-up included."
  },
  {
   "property": "C86",
   "status": "partial",
   "theorems": [
    "C86_one_worker_refuted",
    "C86_one_worker_partial"
   ],
   "note": "Refuted with two fork handlers; proved with at most one, as C85."
  },
  {
   "property": "C87",
   "status": "proved",
   "theorems": [
    "C87_cancelled_worker_ends"
   ],
   "note": "Seven of its own steps from any reachable state (epoll_pwait and nanosleep are cancellation points)."
  },
  {
   "property": "C88",
   "status": "partial",
   "theorems": [
    "C88_stuck_refuted",
    "C88_stuck_partial",
    "C88_readers_never_stuck"
   ],
   "note": "Refuted: after a refused write lock RawWriteLock calls RawReadLock with the mutex held and the flag cleared. Proved: that is the only way, and read and unlock calls never get stuck."
  },
  {
   "property": "C89",
   "status": "partial",
   "theorems": [
    "C89_dangling_refuted",
    "C89_dangling_partial"
   ],
   "note": "Refuted: a destructor whose release fails leaves its pointer in the list. Proved when destructors release successfully."
  },
  {
   "property": "C90",
   "status": "partial",
   "theorems": [
    "C90_race_refuted",
    "C90_race_partial"
   ],
   "note": "Refuted: a conversion of a lone lock changes the list after the mutex was dropped. Proved without conversions of locked objects."
  },
  {
   "property": "C91",
   "status": "proved",
   "theorems": [
    "C91_mutex_free"
   ],
   "note": "Any answers, any ranges."
  },
  {
   "property": "C92",
   "status": "partial",
   "theorems": [
    "C92_upgrade_refuted",
    "C92_upgrade_partial"
   ],
   "note": "Refuted: the read lock is gone after a refused upgrade. Proved: a failing lock call leaves its object unlocked or a release was refused; others keep theirs."
  },
  {
   "property": "C93",
   "status": "proved",
   "theorems": [
    "C93_others"
   ],
   "note": "Any ranges and answers; objects destroyed by failing destructors excluded."
  },
  {
   "property": "C94",
   "status": "proved",
   "theorems": [
    "C94_lock_result",
    "C94_unlock_result",
    "C94_unlock_honest"
   ],
   "note": "Any ranges and answers; objects destroyed by failing destructors excluded."
  },
  {
   "property": "C95",
   "status": "partial",
   "theorems": [
    "C95_crossing_refuted",
    "C95_crossing_partial"
   ],
   "note": "Refuted for crossing ranges: the new holder releases its own range instead of the one held, the layer says EINVAL, the write lock stays for ever. Proved for equal or disjoint ranges."
  },
  {
   "property": "C96",
   "status": "proved",
   "theorems": [
    "C96_live_kept"
   ],
   "note": "Pass taken sequentially, lists unchanged by other hands; the process table changes freely. Identifiers: pid not 0, descriptor an int, device and inode of a file not all zero or all ones."
  },
  {
   "property": "C97",
   "status": "partial",
   "theorems": [
    "C97_gone_refuted",
    "C97_gone_partial",
    "C97_second_partial"
   ],
   "note": "Refuted: a dead thread that left a lock without descriptor under the number -1 is taken for running when its mutex or wait is checked later in the same pass. Proved: all range locks; mutexes and waits of other threads; everything after a second pass."
  },
  {
   "property": "C98",
   "status": "proved",
   "theorems": [
    "C98_conserved"
   ],
   "note": "Counts of the four pools; lock word against the locked holders of the range."
  },
  {
   "property": "C99",
   "status": "proved",
   "theorems": [
    "C99_range_pass"
   ],
   "note": "The pass of flcklistofflock.cc:212-226 over one range, exceptions included."
  },
  {
   "property": "C100",
   "status": "proved",
   "theorems": [
    "C100_levels"
   ],
   "note": "Text of messages left out: level and destination only. A message of level SILENT is printed in every mode, as coded."
  },
  {
   "property": "C101",
   "status": "proved",
   "theorems": [
    "C101_environment"
   ],
   "note": "strcasecmp in the C locale."
  },
  {
   "property": "C102",
   "status": "partial",
   "theorems": [
    "C102_streams_refuted",
    "C102_streams_partial",
    "C102_one_stream"
   ],
   "note": "Refuted: when fclose fails the complaint is written to the stream just closed. Proved: nothing else is, and all is well when no close fails."
  },
  {
   "property": "C103",
   "status": "partial",
   "theorems": [
    "C103_failed_change_refuted",
    "C103_failed_change_partial"
   ],
   "note": "Refuted: the old file is closed before the new one is opened, so a failing fopen sends messages to standard error. Proved: exactly where they go."
  },
  {
   "property": "C104",
   "status": "partial",
   "theorems": [
    "C104_race_refuted",
    "C104_race_partial",
    "C104_level"
   ],
   "note": "Refuted: the stream read before another thread closes it is used afterwards; it may also be read as NULL. Proved when no thread changes the file."
  },
  {
   "property": "C105",
   "status": "proved",
   "theorems": [
    "C105_unknown_name",
    "C105_names_stay"
   ],
   "note": "Conditions are never removed by the code."
  },
  {
   "property": "C106",
   "status": "proved",
   "theorems": [
    "C106_end_written",
    "C106_end_visible"
   ],
   "note": "Forked children: see C107."
  },
  {
   "property": "C107",
   "status": "proved",
   "theorems": [
    "C107_child_has_worker",
    "C107_started",
    "C107_child_soon"
   ],
   "note": "Any number of handlers; the bound of six steps for one handler. More than one handler means more than one worker, see C86."
  },
  {
   "property": "C108",
   "status": "proved",
   "theorems": [
    "C108_all_or_nothing",
    "C108_detach"
   ],
   "note": "munmap, unlock and close do not fail in the model. Forked children have the mapping without the lock, see C48."
  },
  {
   "property": "C109",
   "status": "partial",
   "theorems": [
    "C109_refusal_explained_partial",
    "C109_refusal_explained_refuted"
   ],
   "note": "Refuted for overlapping ranges: the entry of an unlocked range stays while a narrower lock shares it. Proved for equal or disjoint ranges when no read attempt of the caller is disturbed between load and compare-and-swap."
  },
  {
   "property": "C110",
   "status": "proved",
   "theorems": [
    "C110_free_lock_granted"
   ],
   "note": "Threads may have died anywhere outside the two windows of careful. Steps are atomic actions of the model."
  },
  {
   "property": "C111",
   "status": "partial",
   "theorems": [
    "C111_linearizable_partial",
    "C111_no_wait_linearizable_partial",
    "C111_one_locker_in_history_partial",
    "C111_linearizable_refuted"
   ],
   "note": "Refuted without restriction (witness of C12). Proved when nobody dies in the window of C12, and for any deaths when nobody waits on a condition. Nested locks by the owner count once, as in the code."
  },
  {
   "property": "C112",
   "status": "partial",
   "theorems": [
    "C112_linearizable_partial",
    "C112_no_conflict_in_history_partial",
    "C112_linearizable_refuted"
   ],
   "note": "Refuted for overlapping ranges (witness of C19). Proved for equal or disjoint ranges with open descriptors, nobody dying in the two windows of careful, no descriptor closed during a lock call on it, and without the disturbed read attempts of C63. Lock calls may always report ENOLCK; the answer yes of islocked is left open here (C22)."
  },
  {
   "property": "C113",
   "status": "partial",
   "theorems": [
    "C113_linearizable_partial",
    "C113_no_wait_linearizable_partial",
    "C113_one_locker_in_history_partial",
    "C113_linearizable_refuted"
   ],
   "note": "Refuted without restriction (witness of C12 with names). Proved when nobody dies in the window of C12, and for any deaths when nobody waits on a condition. Registration and lock are two instants: an unlock by another thread in between succeeds (example)."
  },
  {
   "property": "C114",
   "status": "partial",
   "theorems": [
    "C114_no_room_partial",
    "C114_few_names_never_refused",
    "C114_no_room_refuted"
   ],
   "note": "Refuted: a thread that dies between taking an entry and entering its name loses the entry for good. Proved up to one entry per death, hence exactly without deaths."
  },
  {
   "property": "C115",
   "status": "proved",
   "theorems": [
    "C115_free_name_locked_at_once",
    "C115_new_name_without_room",
    "C115_try_refused_at_once",
    "C115_unlock_by_owner",
    "C115_unlock_by_others"
   ],
   "note": "Any schedule. The unlock of the owner takes three steps per counted lock (the loop of the code). A lock of a name the caller owns already is C06."
  },
  {
   "property": "C116",
   "status": "proved",
   "theorems": [
    "C116_pass_frees_mutexes_of_the_dead",
    "C116_blocking_lock_takes_over"
   ],
   "note": "Any schedule. The blocking lock is followed for the retry decisions that start a pass after the first failed attempt."
  },
  {
   "property": "C117",
   "status": "partial",
   "theorems": [
    "C117_relock_partial",
    "C117_same_as_unbounded_partial",
    "C117_relock_refuted",
    "C117_damage_stays",
    "C117_blocking_relock_spins"
   ],
   "note": "False: the counter is a 32-bit int. After 2^31 locks by the owner the next try-lock answers EBUSY and a blocking one retries for ever (C117_blocking_relock_spins); once released, the mutex keeps INT_MAX in its counter and every later owner is refused a second lock (C117_damage_stays). Partial: as long as nobody locks a mutex it holds 2^31-1 times, relocking succeeds and the machine is the one of C05-C12 and C111."
  },
  {
   "property": "C118",
   "status": "proved",
   "theorems": [
    "C118_exclusion_for_any_counter",
    "C118_exclusion_32bit",
    "C118_unlock_frees_for_any_counter"
   ],
   "note": "Assumes, as C05 with deaths, that no thread exits between the instant a recovery pass reads it as owner and the lookup, unless it still owns the mutex. The counter may take any value after any step."
  },
  {
   "property": "C119",
   "status": "proved",
   "theorems": [
    "C119_spin_lock_not_seen",
    "C119_linearizable",
    "C119_one_locker",
    "C119_no_room",
    "C119_one_inside"
   ],
   "note": "Assumes that no loop counter of a spinning thread reaches 2^31 (C34 says what happens then). The linearizability corollaries carry the hypotheses of C113."
  },
  {
   "property": "C120",
   "status": "proved",
   "theorems": [
    "C120_free_name_locked",
    "C120_new_name_without_room",
    "C120_try_refused",
    "C120_unlock_by_owner",
    "C120_unlock_by_others",
    "C120_pass_frees_mutexes_of_the_dead",
    "C120_blocking_lock_takes_over"
   ],
   "note": "As C115 and C116; the bound counts compare-and-swaps, liveness probes and the steps of Nmtx_Model."
  },
  {
   "property": "C121",
   "status": "partial",
   "theorems": [
    "C121_dump_shows_partial",
    "C121_short_lists_are_complete",
    "C121_dump_complete_refuted"
   ],
   "note": "False: the three lists in use are dumped through their head only, so the second mutex, file or condition variable is not shown. Partial: the first entry of each with everything inside it, and all of every free list; hence complete when no list in use has more than one entry."
  },
  {
   "property": "C122",
   "status": "partial",
   "theorems": [
    "C122_members_partial",
    "C122_read_write_locks_partial",
    "C122_mutex_state_refuted",
    "C122_first_lines"
   ],
   "note": "False for mutexes: neither the owner nor the counter is printed. Partial: every value printed is the one in memory, and two memories with the same dump agree on the read/write locks shown. The text of numbers is not modelled."
  },
  {
   "property": "C123",
   "status": "partial",
   "theorems": [
    "C123_dump_while_running_refuted",
    "C123_only_entries_partial",
    "C123_without_release_partial"
   ],
   "note": "False: the dump takes no list lock; an entry released while the walk stands on it leads into the free list. Partial: only entries of the two lists are ever reached, and without releases the walk shows the list of one moment."
  },
  {
   "property": "C124",
   "status": "partial",
   "theorems": [
    "C124_primitives_not_seen",
    "C124_linearizable_partial",
    "C124_no_conflict_partial",
    "C124_exclusion",
    "C124_present_holder_keeps_lock",
    "C124_one_inside"
   ],
   "note": "Assumes that no loop counter of a spinning thread reaches 2^31 (C34). The table corollaries carry the hypotheses of C112: equal or disjoint ranges, no disturbed last attempt. The unlock of a dead locker's word inside a recovery stays one step."
  },
  {
   "property": "C125",
   "status": "proved",
   "theorems": [
    "C125_calls_return",
    "C125_free_lock_granted",
    "C125_holder_unlocks",
    "C125_pass_releases",
    "C125_pass_then_lock"
   ],
   "note": "The bounds count compare-and-swaps, loads, liveness probes and the steps of RwApi_Model. The answers of C110, C21, C27 and C30 carry over with their hypotheses."
  },
  {
   "property": "C126",
   "status": "partial",
   "theorems": [
    "C126_timed_call_returns_refuted",
    "C126_minus_one_waits",
    "C126_timed_lock_returns_partial",
    "C126_timed_wait_returns_partial",
    "C126_timed_wait_in_time_refuted",
    "C126_manner_of_calls",
    "C126_range_of_calls"
   ],
   "note": "False: the timeout -1 means no timeout, and a condition wait gives its whole timeout once to the signal and once more to the mutex. Partial: with every other timeout locks return in time, and a wait once both of its parts have had their time."
  },
  {
   "property": "C127",
   "status": "partial",
   "theorems": [
    "C127_timeout_reported_refuted",
    "C127_timeout_reported_partial",
    "C127_success_is_true",
    "C127_clock_failure",
    "C127_wait_success_is_true",
    "C127_timed_out_wait_has_mutex_refuted"
   ],
   "note": "False: the timeout 0 answers EBUSY like a try lock. Partial: with every other timeout the answers are 0, after a successful attempt, and ETIMEDOUT; a failing clock gives EBUSY. A wait that answers 0 was signalled and has the mutex; one that answers ETIMEDOUT may lack it."
  },
  {
   "property": "C128",
   "status": "partial",
   "theorems": [
    "C128_null_refused_refuted",
    "C128_null_refused_partial",
    "C128_others_go_on",
    "C128_null_mutex_is_empty_name",
    "C128_null_mutex_found"
   ],
   "note": "False: the mutex name of a condition wait is not checked; the null pointer is taken for the name \"\" and the wait goes on if that mutex exists. Partial: every other name argument is checked first."
  },
  {
   "property": "C129",
   "status": "partial",
   "theorems": [
    "C129_waiter_served_refuted",
    "C129_overtaken_for_ever_partial"
   ],
   "note": "False: the thread that unlocks may lock again before the waiter looks, for ever. Partial: a waiter that runs no recovery pass and waits for ever although the mutex is free again and again is overtaken by others for ever."
  },
  {
   "property": "C130",
   "status": "partial",
   "theorems": [
    "C130_asker_served_refuted",
    "C130_writer_overtaken_partial",
    "C130_reader_disturbed_partial"
   ],
   "note": "False: two readers that take turns keep a writer out for ever. Partial: a writer never served finds the lock taken anew after every time it was free; a reader never served sees a writer or a changed word again and again."
  },
  {
   "property": "C131",
   "status": "proved",
   "theorems": [
    "C131_list_lock_not_seen",
    "C131_calls_are_calls",
    "C131_one_inside",
    "C131_signal_wakes_longest",
    "C131_no_lost_wakeup",
    "C131_broadcast_wakes_all",
    "C131_wait_success",
    "C131_all_entries_return"
   ],
   "note": "Proved: every execution with the spin lock has a shadow with the atomic list lock, with the same calls, results, deaths and final memory; the theorems about signals, broadcasts and waits are carried over."
  },
  {
   "property": "C132",
   "status": "proved",
   "theorems": [
    "C132_calls_return",
    "C132_immediate_calls_return",
    "C132_free_mutex_is_got",
    "C132_signal_alone",
    "C132_broadcast_alone",
    "C132_woken_waiter_returns",
    "C132_signal_reaches_waiter"
   ],
   "note": "Proved with explicit bounds on the turns; 1005 of them for taking over the spin lock."
  },
  {
   "property": "C133",
   "status": "partial",
   "theorems": [
    "C133_no_stale_memory_refuted",
    "C133_no_stale_memory_partial"
   ],
   "note": "False with two fork handlers (the library initialised, terminated and initialised again): the second handler in a child frees the block of the worker that the first one started. Partial: holds when forks find at most one handler."
  },
  {
   "property": "C134",
   "status": "partial",
   "theorems": [
    "C134_nothing_left_refuted",
    "C134_no_forks_partial",
    "C134_per_fork_partial"
   ],
   "note": "False: a child never closes the descriptors of its parent, and loses the block of a worker that forked too early or too late. Partial: nothing is left without forks; at most two blocks and two descriptors per fork."
  },
  {
   "property": "C135",
   "status": "partial",
   "theorems": [
    "C135_worker_memory_partial",
    "C135_all_memory_partial",
    "C135_child_keeps_nothing_refuted"
   ],
   "note": "False: the descriptors stay open in the child. Partial: the memory is given back if the worker had noted its block and had not begun to clean up."
  },
  {
   "property": "C136",
   "status": "partial",
   "theorems": [
    "C136_open_descriptors_refuted",
    "C136_open_descriptors_partial"
   ],
   "note": "False with two fork handlers: the second worker resets the static members that the first one uses. Partial: holds when forks find at most one handler."
  },
  {
   "property": "C137",
   "status": "proved",
   "theorems": [
    "C137_sequential_view",
    "C137_waiting",
    "C137_returning",
    "C137_locked_means_held",
    "C137_balanced"
   ],
   "note": "Objects used by one thread each, no change of kind on a locked object (that accesses the list without the mutex, C138). Corollaries carry C61 and C62 over to several threads."
  },
  {
   "property": "C138",
   "status": "partial",
   "theorems": [
    "C138_one_at_a_time_refuted",
    "C138_one_at_a_time_partial"
   ],
   "note": "False: two threads that each ask for writing with an object that reads are both at the list without the mutex. Partial: without such calls a thread at the list has the mutex."
  },
  {
   "property": "C139",
   "status": "partial",
   "theorems": [
    "C139_turn_refuted",
    "C139_turn_partial",
    "C139_lost_for_ever"
   ],
   "note": "False: a thread that is refused a write lock after it took over its readers spins on the mutex it has. Partial: the holder releases unless it was refused a write lock or is gone since a fork; and a holder that spins keeps the mutex for ever."
  },
  {
   "property": "C140",
   "status": "partial",
   "theorems": [
    "C140_child_refuted",
    "C140_child_partial",
    "C140_child_never"
   ],
   "note": "False: a fork while another thread has the mutex leaves it locked in the child for ever (proved). Partial: with the mutex free at the fork the calls of the child return."
  },
  {
   "property": "C141",
   "status": "proved",
   "theorems": [
    "C141_with_primitives",
    "C141_blocking_takes_over"
   ],
   "note": "Every holder of a conflicting lock is gone for privileged and unprivileged observers; ranges equal or disjoint; nobody dies between the lock word and the mark of its entry (C30). With primitives: loop limit of one round."
  },
  {
   "property": "C142",
   "status": "partial",
   "theorems": [
    "C142_others_never",
    "C142_timed_takes_over_refuted"
   ],
   "note": "False: a timed call never looks for dead holders. Proved instead: while a timed, trying or (outside high robust mode) blocking call runs alone a conflicting lock stays and the call does not return 0."
  },
  {
   "property": "C143",
   "status": "partial",
   "theorems": [
    "C143_unmaps_whole_refuted",
    "C143_two_threads_refuted",
    "C143_unmaps_whole_partial",
    "C143_no_forks_partial"
   ],
   "note": "False: a forked child whose parent is gone, or a process that attached with two threads at once, reads the length that another process has written into the header meanwhile. Partial: a process that attached itself, its calls not overlapping with its initialisation."
  },
  {
   "property": "C144",
   "status": "partial",
   "theorems": [
    "C144_maps_file_refuted",
    "C144_maps_file_partial"
   ],
   "note": "False: a forked child keeps a mapping of a file that another process truncates (see C48). Partial: processes that attached themselves; the areas are inside when the counts the file was made with are permitted ones."
  },
  {
   "property": "C145",
   "status": "partial",
   "theorems": [
    "C145_exclusion_forks_refuted",
    "C145_exclusion_forks_partial"
   ],
   "note": "False without any death: the number of the calling thread is kept across fork (C02), so /proc does not know the identity of the child and a blocking call of another process takes the mutex from it. Partial: threads fork only before their first call of the library, and nobody dies in the window of C12."
  },
  {
   "property": "C146",
   "status": "partial",
   "theorems": [
    "C146_one_inside_refuted",
    "C146_one_inside_partial"
   ],
   "note": "False: the lock word of the list is taken from a forked child for the same reason. Partial under the conditions of C145."
  },
  {
   "property": "C147",
   "status": "partial",
   "theorems": [
    "C147_statics_refuted",
    "C147_lock_left_refuted",
    "C147_late_call_refuted",
    "C147_started_at_exit_refuted",
    "C147_statics_partial",
    "C147_before_exit"
   ],
   "note": "False: a static recursive lock object that is built before the first lock call and left locked is destroyed after the library; its lock stays in the shared memory. An object that calls the library only in its destructor makes it read a null path when the mode says to try again; an unused recursive lock object starts the library at exit, when the object for messages may be gone. Partial: automatic initialisation that succeeds, objects that lock or call in their constructors, or lazy ones that are unlocked at exit. C147_before_exit has no conditions."
  },
  {
   "property": "C148",
   "status": "partial",
   "theorems": [
    "C148_worker_refuted",
    "C148_worker_careful_refuted",
    "C148_worker_partial"
   ],
   "note": "False in the most common program: one lock call, then exit; the cache is built after the library and destroyed before the worker is stopped. Partial: the cache was built before the library started (a recursive lock object, for example), or the mode starts no worker."
  },
  {
   "property": "C149",
   "status": "partial",
   "theorems": [
    "C149_reinitialize_refuted",
    "C149_reinitialize_partial",
    "C149_first_use_fails",
    "C149_as_configured"
   ],
   "note": "False: as the first use of the library, in the default environment, fullock_reinitialize starts the library in the middle of the call (the helper is built when the directory variable is first named), so the default file is opened, the call then fails because a file is open already, and the default file stays open. C149_first_use_fails shows this for all inputs. Partial: success always means the file asked for; failure is clean when the library was in use, when FLCKAUTOINIT is NO, or when the automatic start opens nothing. C149_as_configured links the later calls with the configuration model."
  },
  {
   "property": "C150",
   "status": "partial",
   "theorems": [
    "C150_settings_refuted",
    "C150_settings_partial"
   ],
   "note": "False: the setters do not start the library, and the first lock call reads the environment over the settings. Partial: the library is in use already, or the environment has no valid value for the setting."
  },
  {
   "property": "C151",
   "status": "partial",
   "theorems": [
    "C151_mutex_data_partial",
    "C151_mutex_data_without_cond_wait_partial",
    "C151_mutex_data_refuted",
    "C151_plain_unlock_would_not_do"
   ],
   "note": "False for every timing of deaths, because two threads can then have the mutex (C12). Partial: nobody dies in the window of C12, or nobody releases the mutex in a condition wait. C151_plain_unlock_would_not_do shows what the locked instructions of the unlock are for."
  },
  {
   "property": "C152",
   "status": "partial",
   "theorems": [
    "C152_file_data_partial",
    "C152_file_data_refuted"
   ],
   "note": "False for arbitrary ranges, because a reader and a writer can then overlap (C19). Partial: ranges pairwise equal or disjoint, the conditions of C18, descriptors kept open while a lock is held through them."
  },
  {
   "property": "C153",
   "status": "proved",
   "theorems": [
    "C153_list_data"
   ],
   "note": "x86 store buffers; the kernel empties the buffer of a thread before its end is visible in /proc."
  },
  {
   "property": "C154",
   "status": "partial",
   "theorems": [
    "C154_waits_for_itself",
    "C154_reads_again_partial",
    "C154_lock_again_refuted"
   ],
   "note": "False when one of the two is a write lock: C154_waits_for_itself shows for all executions that the call never succeeds while the thread keeps its first lock, and that a blocking call never returns except for want of room. Only the class of rwlockrcsv.h locks again (C61). Partial: reading again is granted when nobody else writes."
  },
  {
   "property": "C155",
   "status": "partial",
   "theorems": [
    "C155_worker_refuted",
    "C155_worker_partial",
    "C155_when_opened",
    "C155_unchanged",
    "C155_no_file_no_worker"
   ],
   "note": "False: the mode is looked at only when the file is opened, so LOW or HIGH set later starts no thread and NO set later ends none (C155_unchanged). Partial: programs that switch between NO and the other modes only while no file is open; C155_when_opened holds for all programs."
  },
  {
   "property": "C156",
   "status": "partial",
   "theorems": [
    "C156_exclusion_forks_refuted",
    "C156_exclusion_forks_partial"
   ],
   "note": "False without any death: the identity of a child whose parent had used the library names no thread (C02), so another process takes the internal lock from the running child. Partial: threads fork only before their first call of the library, with the conditions of C18; the children inherit the descriptors and settings of the parent."
  },
  {
   "property": "C157",
   "status": "partial",
   "theorems": [
    "C157_holder_keeps_refuted",
    "C157_holder_keeps_partial"
   ],
   "note": "False without any death: a lock without a file, and with an unprivileged looker every lock, is released under a child whose parent had used the library (C157_unprivileged is an execution for the second). Partial: threads fork only before their first call of the library, with the conditions of C29."
  },
  {
   "property": "C158",
   "status": "partial",
   "theorems": [
    "C158_one_number_refuted",
    "C158_one_number_partial",
    "C158_own_number_partial"
   ],
   "note": "False: the destructor of the static object deletes the key but leaves it in use, so a call made while the process exits takes the number of the thread anew (a forked child was known by the number of its parent before), or takes for the number what another library stores under the key it was given. Partial: (1) no process exits - forks anywhere, keys that are not obtained, values that cannot be stored; (2) processes exit while their threads go on, threads fork only before their first call and no library creates a key in an exiting process: then the number is the thread's own."
  },
  {
   "property": "C159",
   "status": "partial",
   "theorems": [
    "C159_others_intact_refuted",
    "C159_others_intact_partial"
   ],
   "note": "False: the deleted key goes on being used after exit, so the library stores its number under a key that meanwhile belongs to another library. Partial: no library creates a key in a process that is exiting; forks, exits and failures are unrestricted."
  },
  {
   "property": "C160",
   "status": "partial",
   "theorems": [
    "C160_exclusion_refuted",
    "C160_exclusion_partial"
   ],
   "note": "False: re-initialising with the same file empties it when nobody else uses it, although the caller has mutexes of it; the same when the holder is elsewhere and the last user leaves. Partial: nobody leaves a file as its last user while somebody has a mutex of it. Success in the modes that allow locking without a file is not counted as having the mutex."
  },
  {
   "property": "C161",
   "status": "partial",
   "theorems": [
    "C161_can_unlock_refuted",
    "C161_can_unlock_partial",
    "C161_stuck_partial"
   ],
   "note": "False: after re-initialisation with another file the unlock answers EINVAL (or EPERM). Partial: the process is at the file of the mutex again and the file never lost its last user. C161_stuck_partial: as long as the process lives elsewhere nobody gets the mutex, whatever passes run."
  },
  {
   "property": "C162",
   "status": "partial",
   "theorems": [
    "C162_released_refuted",
    "C162_threads_refuted",
    "C162_earlier_refuted",
    "C162_forked_refuted",
    "C162_by_descriptor_partial",
    "C162_prompt_partial",
    "C162_next_close_partial"
   ],
   "note": "False: the worker looks only on a close event, and then only once. An ended process that has not been waited for is still found in /proc, the end of a thread closes nothing, there is no pass at the start, and no event comes while a forked child has the open file (four witnesses; a failing read is a fifth). Partial: locks looked up by descriptor, with successful reads and processes that end after the worker watches and whose open file nobody shares; all locks when processes are gone by the time the worker looks; everything found dead at the time of any further close of the file."
  },
  {
   "property": "C163",
   "status": "partial",
   "theorems": [
    "C163_released_refuted",
    "C163_ranges_refuted",
    "C163_rest_partial",
    "C163_stays_partial",
    "C163_heir_partial"
   ],
   "note": "False: the main thread of the new program has the numbers of that of the old one, so its mutexes and its locks without a file stay; and a range on an inherited descriptor stays whichever thread locked it (two witnesses). Partial: with numbers of threads and descriptors not used again, nothing else stays; what stays is refused to everybody else for as long as the process lives and its main thread does not unlock it; that main thread gets such a mutex at once and one unlock frees it. Mutex calls are taken as single steps that do not wait, ranges as read locks."
  },
  {
   "property": "C164",
   "status": "partial",
   "theorems": [
    "C164_released_refuted",
    "C164_in_time_partial",
    "C164_own_partial"
   ],
   "note": "False: the new process is found under the number and taken for the owner. Partial: a pass before the number is given out again releases everything of the ended process; if numbers are not given out before that, no registered lock belongs to an ended process while another has its number. What happens otherwise is in C163_stays_partial and C163_heir_partial, which include such processes."
  },
  {
   "property": "C165",
   "status": "proved",
   "theorems": [
    "C165_mutex",
    "C165_cond",
    "C165_range",
    "C165_nothing_else",
    "C165_waits"
   ],
   "note": "For attached processes and names that are not null (null names: C128). What the shared memory does with a request is the subject of C05-C44; here it is shown which request each function makes and that requests of different functions meet."
  },
  {
   "property": "C166",
   "status": "partial",
   "theorems": [
    "C166_released_refuted",
    "C166_others_refuted",
    "C166_rest_partial",
    "C166_stays_partial"
   ],
   "note": "False: the system keeps the /proc entry of an ended main thread as long as the process goes on, so its mutexes and locks without a file stay; and ranges are looked up by the descriptor, which is the process's (two witnesses). Partial: with numbers not used again nothing else of ended threads stays; the mutex of an ended main thread is refused to everybody, and nobody can unlock it, until the process ends or executes another program. That /proc keeps the entry is a fact about Linux taken into the model."
  },
  {
   "property": "C167",
   "status": "proved",
   "theorems": [
    "C167_atomic",
    "C167_retries",
    "C167_set_returns",
    "C167_woken_returns"
   ],
   "note": "Forward simulation by a machine in which every call acts in one step, for one status word; retries are counted along executions. How long a timed wait takes is C13 and C14, the lists and the mutex around the word are C38-C44 and C131."
  },
  {
   "property": "C168",
   "status": "proved",
   "theorems": [
    "C168_one_at_a_time",
    "C168_none_left",
    "C168_none_waiting",
    "C168_own_release",
    "C168_no_deadlock"
   ],
   "note": "Functions are modelled by their control flow: branches go either way and loops run any number of times, so every path of the code is covered, and what is done to lists and words is one step. Left out: returns for list objects without an entry, which no caller can bring about. That the steps done under a list lock end is the subject of C35-C37, C119, C120 and C131; order among several waiting threads is C129 and C130."
  }
 ]
}