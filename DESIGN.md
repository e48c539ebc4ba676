# Formal model of fullock: design

Source modelled: `/repo/lib` (C++) of yahoojapan/fullock at the pinned commit.
All citations `file:lines` in the Coq files refer to that directory.

## Structure

For each area `X` there are up to four files in `rocq/theories`:

* `X_Model.v`: the executable model. Each definition cites the lines of `/repo/lib` it transcribes.
* `X_Spec.v`: the independent vocabulary used by the theorem statements (no helper of the model is
  needed to read it beyond the state record).
* `X_Proofs.v`: invariants and lemmas.
* `X_Props.v`: only the property theorems (`Theorem ... exact lemma. Qed.`), an `Example` that meets
  the hypotheses of each, and `Print Assumptions`.

Concurrent parts are *program-counter machines*: one constructor per shared memory access (or per
critical section where stated), a `step` function for a chosen thread, and theorems about every state
reachable by any schedule with any number of threads.  Thread deaths are steps.
Integers that matter for overflow are `Z` with explicit wrap-around (`mod 2^64`) or an explicit
undefined-behaviour outcome.

A property that is false of the faithful model is kept in full view and proved false:
theorem `..._refuted` with a concrete execution.  The strongest true part is proved beside it
(suffix `_partial` when it only covers part of the statement).

## Plan per property

| Property | Model | How |
|---|---|---|
| C01 | `compose_flckpid`/`decompose_flckpid` on 64-bit words | bit arithmetic on Z |
| C02 | TLS-cached tid + fork as a state machine | refuted by a 2-step history; proved for histories where the forking thread had not cached its id |
| C03 | `initialize`/`compare` on byte strings, FNV-1a as coded | list reasoning, hash irrelevant to the result |
| C04 | sequential registry machine (`RawLock` on names) | induction over histories |
| C05-C09 | fine-grained machine of the mutex word and count | inductive invariant; C07 refuted (one unlock drops all levels) |
| C10-C12 | same machine with deaths and recovery passes | inductive invariant with death-window hypothesis; C12 refuted by an explicit schedule |
| C13,C14 | timespec arithmetic | lia; C14 exact promptness refuted, one-second bound proved |
| C15 | fine-grained machine of one lock word, n threads | counting invariant |
| C16,C17 | overlap comparison with 64-bit wrap | lia; C17 refuted |
| C18-C31 | machine of the rwlock structure: file list, range entries, lockers, pools, /proc environment; steps are critical-section micro-steps and lock-word accesses | inductive invariants; refutations by explicit executions |
| C32-C34 | fine-grained machine of the guard word with crashes | inductive invariant, bounded-progress induction; C34 refuted by an unbounded wait |
| C35-C37 | pointer-level memory with relative next pointers, ops as write sequences | refinement to Gallina lists, all write prefixes |
| C38-C44, C69-C72, C105 | machine of all conditions, their waiters and the mutexes | inductive invariants; C38,C42,C43,C69 refuted in full generality, true parts proved |
| C45,C46 | layout arithmetic and list initialisation | arithmetic, induction on counts |
| C47-C49, C73, C74, C108 | machine of processes, fcntl locks and the file | inductive invariant; C47-C49,C73,C74 refuted in full generality, true parts proved |
| C50-C53, C76-C78 | parsing and configuration functions | case analysis, induction on strings; invariants over call sequences; C50, C51, C76, C77 refuted in full generality |
| C54-C58 | utility functions with OS result oracles | induction |
| C59 | cache as a map with the coded key/default values | induction on query sequences; refuted for descriptor -1 |
| C60, C84-C87, C106, C107 | control flag machine with callers, workers, cancellation, fork handlers | invariants; C84-C86 refuted in full generality, true parts proved |
| C63 | lock word machine | refuted for try-read-lock; reasons of failure proved |
| C64-C68, C109, C110 | same machine as C18-C31 | C64-C68, C109 refuted by explicit executions; the pools of file and locker entries are conserved in every mode and with deaths, the pool of range entries while no process uses FREE_FD (RwApi_Proofs11: invariants `kept_l`, `OI`; theorems in RwApi_Props3 for C26, C64, C68); C31 for bytes without conflict; C67 for deaths outside the guard (RwApi_Proofs12: entries of running threads `WI`, protection flags `NP`, what a pass has not visited yet `PI`); C65 proved for open descriptors, C109 for equal or disjoint ranges; C110 by stages of a lone call |
| C111 | the machine of C05-C12 with the history of calls, returns and deaths | forward simulation to an atomic mutex whose calls take effect at one instant; refuted in general by the witness of C12 |
| C112 | the machine of C18-C31 with the history of calls, returns, descriptor changes and deaths | forward simulation to an atomic lock table, for equal or disjoint ranges; refuted in general by the witness of C19 |
| C113, C114 | lookup and registration of names under the guard, then the machine of C05-C12 on the entry found | invariant over all entries, forward simulation to a table of atomic mutexes (registration and lock are two instants); counting of free, registered and lost entries for C114 |
| C115, C116 | the same machine | in a reachable state where no living thread is inside a call the guard can be taken (invariant); then step-by-step execution, induction over the count (unlock) and over the list (pass) |
| C117 | the mutex machine with the counter reduced to 32 bits after each step | refuted (2^31 locks, by induction; the damage survives the unlock); below the wrap the machine equals the unbounded one (invariant on who may raise the counter) |
| C118 | the mutex machine with a counter that changes arbitrarily at each step | invariant without the counter |
| C119, C120 | the machine of C113-C116 whose list lock is taken and released by the loops of C32-C34, one step per compare-and-swap or liveness probe | every loop is a stuttering step followed by the atomic one (invariant on where threads are in the loops); solo runs lifted step by step with the take-over bound |
| C61, C62, C88-C95 | objects of the recursive lock class over a shared lock layer given as a list of answers | inductive invariants over call sequences; C61, C62, C88-C90, C92, C95 refuted in full generality, true parts proved |
| C96-C99 | a whole recovery pass with its cache over lists of files, ranges, lockers, mutexes, waiters; process table a function of the question number | the pass is a filter by first answers (induction over the lists, cache invariant); C97 refuted for descriptor -1, true part and the second pass proved |
| C100-C104 | debug mode and file: call sequences with events, and threads step by step around the stream pointer | invariant over call sequences and interleavings; C102-C104 refuted by a failing fclose, a failing fopen and a race, true parts proved |
| C121, C122 | the whole dump as a function from memory cells to lines (`Dump`), read back by section, indentation and key | loops follow chains (induction), sections are read back from the text; refuted: only the head of a list in use is dumped, owners of mutexes are not printed; true parts proved |
| C123 | one walk over a list, its reads interleaved with single writes of other threads' list operations | refuted by a release under the walk; pool invariant over all interleavings, and place-in-list invariant without releases |
| C124, C125 | the machine of C18-C31 whose list lock is taken and released by the loops of C32-C34 and whose read attempts and unlocks load the lock word and compare-and-swap it in separate steps | every loop is a stuttering step followed by the atomic one (invariant on where threads are in the loops and what they loaded); solo runs lifted step by step, with a measure that bounds the steps of a call |
| C126, C127 | the choice between blocking, trying and timed loops by the timeout as passed, over lists of attempts and clock readings (`lock_run`, `wait_run`) | induction over the readings with the exact expiry test of C14, extended to negative limits; refuted by -1, 0 and the second wait for the mutex |
| C128 | the checks of every API call before it reaches the shared memory (`front`) | case analysis; refuted by the unchecked mutex name of a wait, with the registry of C03 to show that the name is usable |
| C129, C130 | infinite schedules over the machines of C05 and C15 (`m_at`, `w_at`), fairness and politeness of threads | refuted by periodic schedules (invariant per phase of the period); true parts by following the word between two attempts of the waiter |
| C131, C132 | the machine of C38-C44 whose list lock is taken and released by the loops of C32-C34 (`ystate`, `y_run`) | every turn in a loop is a stuttering step (invariant on owner and places in the loops), `shadow` drops them; solo runs lifted step by step with a measure that every step lowers unless it waits |
| C133–C136 | the worker control of C60 with the accesses of the worker and of the fork handler to the static members, the heap and the descriptor table as single steps (`rstate`), any number of objects one after the other | invariant `RI`: either one live worker with its block and descriptors or none, plus two lost pieces per fork; statements false, witnesses by computation; `resetting` for the child |
| C137–C140 | the methods of C61 cut into steps at the mutex, the shared lock layer and the list (`prog`), any number of threads, forks (`c_step`) | run without interruption a program is the method (`exec_call`); a step touches the caller's objects and its part of the list (`local`); invariant: each thread's view is a sequential execution, so C61, C62, C88, C90, C91 carry over; refuted by two upgrades, a refused write lock, a fork inside the mutex |
| C141–C142 | the machine of C18–C31 (`r_step`), and with the loops of C124 (`z_step`) | a measure on the points of a blocking call that decreases whenever its loop limit is reached: registration, failed attempt, sweep over the lockers of its range, second attempt; the sweep removes every conflicting lock because its holder is gone. Calls that never sweep: a conflicting lock is an invariant of their solo run, so they cannot return 0 (refutes C142) |
| C143–C144 | the machine of C47 (`i_step`) with configured counts, the size of the file, the length in its header and the length of every mapping (`m_step`); sizes from C45 | invariant: whoever attached itself has the length of the header, which is the size of the file, because the shared lock keeps others from writing; refuted by a forked child whose parent is gone and, without fork, by the two threads of C47 |
| C145–C146 | the machine of C05 (`m_step`) driven by the threads of C01 (`f_step`): a thread calls under the identity the library computes for it, and whether an owner is alive is answered from the list of running threads | witness: fork after the first call, then a lock in the child; partial: simulation of every execution whose forks come first by an execution of the mutex machine with deaths (same words, same program points; both agree about every identity that is ever looked up) |
| C147–C148 | static objects of the library and of the program: registered when their constructors end, destroyed in reverse order; first use builds them (`l_step`); one calling thread and the worker | invariants: what is registered is what is built and not destroyed; what an object needs in its destructor is registered below it; the cache of thread numbers is below the helper while the worker runs. Witnesses by execution |
| C149–C150 | configuration variables, whether the library has been started and which shared file is open (`f_start`, `f_call`, `f_set`, `f_reinit`), over the functions of `Config_*` | invariant over all programs (open file = attached; before the start nothing is open); case analysis of re-initialisation; refinement of `ReInitializeObject` once started. Witnesses by execution |
| C151–C153 | the lock machines of C05, C18 and C32 with one store buffer per thread and data places (x86-TSO, `x_step`): a locked instruction and a visible death wait for the own buffer, stores drain in order at any time | invariant per place: one thread whose loads are right, the only one with stores pending there, and it has the place for writing; the lock machines supply exclusion and "a holder keeps what it has until a locked instruction of its own". Refuted by the witnesses of C12 and C19; a counterexample shows that an unlock by plain stores would not do |
| C154 | the machine of C18 | success of the call would add a grant (C65) beside the kept one (C29), against exclusion (C18); a blocking call answers 0 or ENOLCK only (invariant over its program points). The documented claim is refuted by this theorem applied to one execution |
| C155 | the machine of C149, with a flag for the worker thread | invariant: the flag agrees with the mode in force when the file was opened; reading the environment twice gives the same mode. Witness by execution |
| C156 | threads of `Pid_*` as the users of the machine of C18, with forks that copy descriptors and settings | forward simulation by the machine without forks, whose unborn processes already have the tables they will inherit (statement quantified over these tables), then C18. Witness by execution |
| C157 | the machine of C156 | the same simulation and one step of C29. Witness by execution |
| C158 | the static object of lib/flckutil.cc:555-634 over thread-specific data with generation numbers; threads, forks, exits, other libraries (`Tkey_*`) | the number a thread would be given is kept by every step (without exits); what is stored under a live key is nothing or the thread's own number (with exits). Witnesses by execution |
| C159 | the machine of C158, with what other libraries stored as a ghost field | invariant: keys of others are in use and never the key of the object. Witness by execution |
| C160 | several files and processes; lock, unlock, re-initialisation, death and recovery pass as single steps (`Refile_*`) | invariant: who has a mutex is its owner in the file and the file is in use. Witness by execution |
| C161 | the machine of C160 | the same invariant, and one for a holder that is elsewhere. Witness by execution |
| C162 | worker loop, event queue with edge trigger and merging, ends of processes in two steps, recovery pass lock by lock (`Wake_*`) | invariants over all steps, then a measure for the worker running alone. Witnesses by execution and a fixed point of the worker |
| C163, C164 | owners by numbers of process and thread, descriptors with close-on-exec, execve, start of processes under used numbers, recovery pass (`Exec_*`) | invariant on locks of replaced programs, over all steps; one holder per mutex. Witnesses by execution |
| C166 | the same, with main threads that end before their process: they make no calls, but /proc keeps their entry (`Exec_*`) | invariants on locks noted as left by ended threads and on mutexes of ended main threads. Witnesses by execution |
| C165 | the front end of C126-C128 (`Front_Model`) | case analysis over all functions, names by C03, times by C126 |
| C167 | the loops on the status word of a waiting call, one step per load, compare-and-swap and clock reading (`Cset_*`) | forward simulation by atomic calls; failed compare-and-swaps against writes of others by induction on executions |
| C168 | the control flow of all calls and of the recovery pass with their acquisitions and releases of list locks, branches and loops nondeterministic (`Disc_*`) | a checker of the discipline, proved sound for all commands and stacks by an invariant on executions, evaluated on each function; release by the holder alone by induction on the remaining code |

## Trusted base

* Coq 8.16.1 kernel (and `coqchk`), the OCaml compiler and runtime under them.
* `Print Assumptions` is run for every property theorem; the expected output everywhere is
  "Closed under the global context".
* The reading of the C++ text into the models. Not modelled: the compiler; memory orders weaker than
  that of x86 (C151–C153 treat store buffers; the lock words are written by `__sync_*` instructions only, plain reads of
  them are atomic); the pthread layer, `inotify`, the digits and key strings of the dump and the text of debug messages.

## What the areas cover

* **Read/write lock calls** (`RwApi_*`): one step per critical section part between two stores that a crash or
  another thread can separate.  The list guard is taken and dropped in single steps (its own word-level
  protocol with crashes and takeovers is `Guard_*`), list insertions and removals are single steps (their
  write sequences are `List_*`), the lock word operations are single steps with an explicit flag for a lost
  compare-and-swap (word level: `RwWord_*`); `Rspin_*` splits them, except the unlock of a dead locker's word in a
  recovery, whose liveness question and compare-and-swap stay one step.  The process-state cache of a recovery pass is not part of this
  machine: every question is answered from the current state (`PidCache` is C59).  Files are identified by
  one number instead of the device/inode pair.  Not modelled: a death of the recovering process between
  taking a dead locker out of its list and releasing the lock word, and the re-attachment of the shared
  memory (C45-C49).
* **Mutex calls** (`Mutex_*`): one named mutex; name lookup is `Name_*`.  `Nmtx_*` puts the parts together: any number
  of names, lookup, registration and the walk of the recovery pass under the guard (taken and dropped in single steps in
  `Nmtx_*`, by the loops of `Guard_*` in `Nspin_*`), the entry found then runs the machine of `Mutex_*`.  A death while holding the guard frees it
  (C33).  Insertion into the list is one step (`List_*`).
* **Condition calls** (`Cond_*`): one step per store another thread or a crash can separate.  A named mutex is
  its owner word (protocol: `Mutex_*`), guard and list operations are single steps (`Guard_*`, `List_*`; `Cspin_*` takes the guard by its loops),
  `clock_gettime` does not fail.  A death between taking a waiter entry from the pool and inserting it loses
  the entry; the recovery pass removes and frees an entry in one step.
* **Shared file** (`Layout_*`): offsets, total size and the initial contents of header and pools, with 64-bit
  wrap-around.  Memory is a map from 8-byte cells to values; fields of an entry other than its link are not
  written by the initialisation of the lists in the model (the code zeroes them).
* **Attaching** (`Init_*`): one step per system call or store of Attach, Detach, InitializeShm, Destroy and
  CheckAttach.  The advisory lock of the first byte belongs to the process; closing any descriptor drops it; fork
  copies descriptor and mapping but no lock.  The content of the file is one of four stages (empty, zeros, header,
  complete); the bytes are `Layout_*`.  A descriptor that is overwritten without being closed is not tracked (its
  later close is the exit of the process).
* **Lengths** (`Mlen_*`): the machine of `Init_*` with sizes.  After an unmapping with a wrong length the machine goes on
  as if it had been right, so only the first one in an execution counts; a zero fill that fails leaves an empty file.
* **Forking users of mutexes** (`Fchild_*`): the threads of `Pid_*` as the users of `Mutex_*`.  A fork happens between calls
  of the forking thread; process and thread numbers are never used twice.
* **Forking users of read/write locks** (`Rfork_*`): the same threads as the users of `RwApi_*`.  A child gets copies of the descriptors and settings
  of its parent; a process ends with its last thread; the child does not close descriptors as part of the fork.
* **Kept thread number** (`Tkey_*`): lib/flckutil.cc:555-634. Thread-specific data is given as glibc has it: a key has a number that grows with each creation and deletion, a value counts only with the
  number it was stored under. A call is one step; destructors of values at the end of a thread do not exist here (the library gives none).
* **Re-initialisation with locks held** (`Refile_*`): lib/flckshm.cc:293-404 and lib/flckshminit.cc:88-113, 115-200, 376-395 at the level of calls, named mutexes only. Lock calls on one file are single
  steps (C113), opening a file is one step (C47-C49); pools are unlimited; a process without a file is refused (the modes that deny).
* **Worker end to end** (`Wake_*`): lib/flckthread.cc:201-314 and lib/flckshm.cc:497-515 for one worker. The kernel is given: close events of a
  watched file are queued, equal ones may be merged, the edge is reported once, no event comes while a forked child has the same open file; a process is first without descriptors and later gone. The pass looks at one lock a step and removes it
  in the same step (C96-C99 have the lists). Failures of epoll_pwait and cancellation are left out.
* **Status words** (`Cset_*`): lib/flckbaselist.tcc:418-451 for one word and any number of threads. `Cond_*` takes each of these calls' accesses as one step; nothing else writes the word.
* **Discipline of the list locks** (`Disc_*`): lib/flckshm.cc:497-623, 661-970, lib/flcklistfilelock.cc:61-155, lib/flcklistofflock.cc:67-236, lib/flcklistncond.cc:59-152, lib/flcklistwaiter.cc:52-106, lib/flcklistnmtx.cc:49-91 by their control flow, for any number of threads. Data are not modelled there (other areas do); conditions become free choices, so more paths are covered than the code has. `fl_lock_lockid` and `fl_unlock_lockid` are one step each (their loops are `Nspin_*`). Left out: returns of list objects without entry.
* **Execution of another program** (`Exec_*`): the effect of execve on owners as lib/flcklistnmtx.cc:97-120 and lib/flcklistlocker.cc:46-77 see them.
  The kernel is given: all other threads end, the calling one gets the number of the process, marked descriptors are closed. Lock, unlock and pass are
  single steps that do not wait; ranges are read locks. The same model has processes that end and others that start under their numbers. Not modelled: a new program with other rights, whose descriptors the pass may not read.
  A main thread that has ended while its process goes on is still found under /proc/<process>/task/<process>, as Linux has it for the first thread of a process; other ended threads are not.
* **Static objects** (`Stat_*`): order of construction and destruction only, with the C++ rules for function-local statics as given.
  What the calls do to the shared memory is one bit per object; no objects of one thread on the same range (pending ones),
  no fullock_reinitialize, no second calling thread.
* **First use** (`First_*`): the start of the library by the first lock call or inside fullock_reinitialize, and whether the worker thread is started with it; one thread, opening the file is one step with a
  given outcome (`ok1` for the automatic start, `ok2` for the later attempt). `Config_*` alone describes re-initialisation after the library has been started.
* **Store buffers** (`Tso_*`): what protected data looks like to a holder. The stores of the library to its own lists are covered by C153 (inside the
  internal lock); the `locked` flag of a read/write locker, stored outside that lock (lib/flcklistofflock.cc:164), stays a step in memory. A thread
  accesses data only between its calls; in C152 it does not close the descriptor while it has the lock.
* **Paths** (`Path_*`): GetRealPath, MakeWorkDirectory and the trimming helpers over lists of characters.  The file
  system is a map from path text to the kind of node, without symbolic links and permissions; failing `stat` and
  `mkdir` calls are given from outside.  Undefined behaviour of C++ is a separate outcome.
* **Configuration** (`Config_*`): LoadEnv, InitializeObject, ReInitializeObject, the setters, CheckAttach and the lock
  calls up to the first access of shared memory, one thread.  `atoi`, `strtol`, `strcasecmp` are defined as in glibc
  (C locale).  Opening and mapping the file is one step with an outcome given from outside (`Init_*` has its steps).
* **File helpers and events** (`Util_*`): the transfer loops and the event reader and scanner of the worker over lists
  of system answers; what was asked and answered is logged.  Memory handed out by `malloc` has unknown content.
* **Process-state cache** (`Cache_*`): the map with the coded key order and default values; the process table may
  change between two questions.
* **Worker control** (`Thread_*`): the flag, the methods and the worker as a machine with one step per access to the
  flag, pthread_create, pthread_cancel and pthread_tryjoin_np failing from outside, and the fork handlers run in a
  child.  The work done for an event is one step (`RwApi_*`, `Mutex_*`, `Cond_*` have it).  Of the backup path only
  whether it is empty is kept.
* **What the worker takes** (`Wres_*`): the parameter block, the path in it, the epoll and inotify descriptors and the
  static members that name them.  Numbers are never used twice, so that a stale one is seen; `new` and `strdup` do not
  fail; nobody forks inside a fork handler.
* **Recovery pass** (`Sweep_*`): the passes over files, mutexes and conditions in their order, with one cache, and the
  pass a waiting call makes over its range.  The process table may change at every question; the lists do not change
  by other hands during the pass (races: `Mutex_*`, `RwApi_*`).  Owners are pairs, not packed words.
* **Debug messages** (`Dbg_*`): mode, file, environment and the print macro.  The text of a message is left out; the
  answers of fopen and fclose come from outside; every fopen gives a new stream.  The threaded part has no failing
  fclose (that is the sequential part) and takes the three accesses of the macro as separate steps.
* **Front door** (`Front_*`): the C API down to the request, and the loops that the timeout selects; an attempt is a
  flag (its steps: `Mutex_*`, `RwWord_*`, `Cond_*`).  An unlock that fails at the start of a wait is not part of `wait_run`.
* **Recursive lock objects** (`Rcsv_*`): the class FLRwlRcsv, method by method; objects are numbers, calls follow each
  other.  The shared lock layer is a list of answers given from outside; every request with its answer is logged, and
  what the process holds is computed from the log.  A call that runs out of answers is waiting in the layer.
* **Recursive lock objects of several threads** (`Rcon_*`): the same methods as programs of steps, interleaved.  Every
  object is made, used and destroyed by one thread (passing an object to another thread, or using the memory of a dead
  object for one of another thread, is left out).  What a call does between two accesses to mutex, shared lock layer and
  list is one step: it concerns objects of its thread, which no other thread touches (proved).

## Reading seeded/LOG.jsonl

`theorems_failed` lists the theorems that no longer check after the edit, found by replacing every proof that breaks and
asking which theorems then depend on a replaced one.  It is an upper bound on what the edit makes false: a theorem is also
listed when only a lemma it uses broke, or when the proof script followed the old text of the program.  So a listed theorem
is evidence that the edit was noticed, not a proof that the theorem's statement is false of the edited program.  Most
entries were judged by reading the statement against the edit.  Where the statement was refuted by evaluating the edited
model, the entry says so in
`refuted_by_evaluation` (so far the `swp` and `dbg` edits: boolean counterparts of C96-C104 on a few fixed cases, the unedited model
violating none; a claim not listed there was not seen to fail on those cases, which does not show it still holds).  Repairs and equivalent edits are marked in `remark`.
