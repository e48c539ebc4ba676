{"id": "C01", "title": "Owner identity packing", "statement": "The 64-bit owner identity recorded for a thread determines its process id and thread id: unpacking a packed pair returns exactly that pair, two different (pid,tid) pairs never get the same identity, and a real thread never gets the reserved identity 0 (meaning 'free').", "quantifier": "every pair of 32-bit process and thread ids", "why_tests_cant": "2^64 input pairs; a sample cannot exclude a collision or a sign-extension corner case", "anchors": ["lib/flckutil.h:compose_flckpid,decompose_flckpid,flckpid_t"]}
{"id": "C02", "title": "A forked child is identified by a live thread", "statement": "After fork(), the identity under which the child locks names a thread that exists in the child, so that dead-owner recovery never treats the running child as dead.", "quantifier": "every history of thread-id queries and forks", "why_tests_cant": "depends on whether the parent thread had already used the library before fork; a test sees one history", "anchors": ["lib/flckutil.h:get_flckpid", "lib/flckutil.cc:get_threadid,FindThreadProcess"]}
{"id": "C03", "title": "Lock names are identified by their first 63 bytes, never by hash", "statement": "Two names given to the mutex or condition API designate the same object if and only if they agree on their first 63 bytes; a collision of the 64-bit name hash never merges two different names.", "quantifier": "every pair of C strings of any length and content (including bytes >= 0x80 and the empty name)", "why_tests_cant": "hash collisions cannot be found by sampling", "anchors": ["lib/flcklistnmtx.h:FlListNMtx::initialize,FlListNMtx::compare,fl_compare_list_base", "lib/flcklistncond.h", "lib/flckutil.h:flck_fnv_hash"]}
{"id": "C04", "title": "Mutex name registry", "statement": "A mutex name stays usable for ever once a lock call on it succeeded in registering it; lock calls on a new name fail with ENOLCK exactly when the configured number of distinct names is already registered; every other registered name keeps its own state.", "quantifier": "every history of lock/unlock calls over any set of names and any configured capacity", "why_tests_cant": "needs all histories and capacities; exhaustion happens only after thousands of names", "anchors": ["lib/flckshm.cc:FlShm::RawLock(const char*)", "lib/flcklistnmtx.h:FlListNMtx::find"]}
{"id": "C05", "title": "Named mutex mutual exclusion", "statement": "At no instant do two threads both own the same named mutex: from the moment a lock, trylock or timedlock call of one thread has succeeded until that thread calls unlock, no such call of another thread succeeds.", "quantifier": "every number of threads (in any processes) and every interleaving of their individual memory accesses in lock, trylock, timedlock and unlock", "why_tests_cant": "depends on the schedule of single loads and compare-and-swaps", "anchors": ["lib/flckbaselist.tcc:fl_lock_mutex,fl_trylock_mutex,fl_timedlock_mutex,fl_unlock_mutex"]}
{"id": "C06", "title": "Relocking by the owner never blocks", "statement": "A thread that owns a named mutex can lock, trylock or timedlock it again; the call succeeds after a bounded number of its own steps whatever the other threads do, and the thread still owns the mutex.", "quantifier": "every interleaving, every recursion depth below the counter limit", "why_tests_cant": "absence of self-deadlock must hold for all schedules", "anchors": ["lib/flckbaselist.tcc:fl_lock_mutex,fl_trylock_mutex,fl_timedlock_mutex"]}
{"id": "C07", "title": "Each lock of a recursive mutex needs its own unlock", "statement": "After a thread has locked a named mutex k times, it still owns the mutex after fewer than k unlock calls, and no other thread can lock it before the k-th unlock.", "quantifier": "every recursion depth and every interleaving", "why_tests_cant": "tests only lock once before unlocking", "anchors": ["lib/flckbaselist.tcc:fl_unlock_mutex"]}
{"id": "C08", "title": "Only the owner can unlock a mutex", "statement": "Unlocking a mutex owned by another thread returns EPERM and changes nothing; unlocking a registered mutex that nobody owns returns 0 and changes nothing; unlocking an unknown name returns EINVAL and changes nothing.", "quantifier": "every state of the mutex and every interleaving", "why_tests_cant": "must hold whatever the other threads do during the call", "anchors": ["lib/flckbaselist.tcc:fl_unlock_mutex", "lib/flckshm.cc:FlShm::RawLock(const char*)"]}
{"id": "C09", "title": "trylock never waits and fails only for a reason", "statement": "fullock_mutex_trylock completes within a fixed number of its own steps for every schedule; it returns 0 and the caller owns the mutex, or returns EBUSY because another thread owned it at an instant during the call.", "quantifier": "every interleaving and every state of the mutex", "why_tests_cant": "wait-freedom is a statement about all schedules", "anchors": ["lib/flckbaselist.tcc:fl_trylock_mutex"]}
{"id": "C10", "title": "A mutex is recovered wherever its owner dies", "statement": "If a thread dies at any instruction of lock, unlock or between them while owning a named mutex, a later recovery pass leaves the mutex free with a zero count, so that the next lock call succeeds.", "quantifier": "every crash point and every interleaving", "why_tests_cant": "crash points are single instructions; tests kill processes at random times", "anchors": ["lib/flcklistnmtx.cc:FlListNMtx::check_dead_lock", "lib/flckbaselist.tcc:fl_force_unlock_mutex", "lib/flckshm.cc:CheckMutexDeadLock"]}
{"id": "C11", "title": "Recovery does not take a mutex from a live owner", "statement": "A recovery pass never releases a named mutex owned by a live thread, provided no thread dies between the instant the pass reads the owner and the instant it looks that owner up.", "quantifier": "every interleaving of any number of threads and recovery passes, deaths at any other instant", "why_tests_cant": "race windows of a few instructions", "anchors": ["lib/flcklistnmtx.cc:FlListNMtx::check_dead_lock", "lib/flckbaselist.tcc:fl_force_unlock_mutex"]}
{"id": "C12", "title": "Recovery is safe for every timing of thread exit", "statement": "A recovery pass never releases a named mutex owned by a live thread, whatever the timing of other threads' releases and exits.", "quantifier": "every interleaving, deaths at any instant", "why_tests_cant": "race window of a few instructions between reading the owner and probing /proc", "anchors": ["lib/flcklistnmtx.cc:FlListNMtx::check_dead_lock:107-119"]}
{"id": "C13", "title": "Timed operations never time out early", "statement": "If a timed lock or wait reports ETIMEDOUT then at least the requested number of microseconds has passed on the clock since it started.", "quantifier": "every start and end clock value and every timeout", "why_tests_cant": "unbounded input space with borrow corner cases", "anchors": ["lib/flckutil.h:SUB_TIMESPEC,IS_OVER_TIMESPEC", "lib/flckbaselist.tcc:fl_timedlock_mutex,fl_timedrdlock_rwlock,fl_timedwrlock_rwlock,fl_timedwait_cond"]}
{"id": "C14", "title": "Timed operations notice an expired timeout", "statement": "Once the requested time has passed, the expiry test of a timed operation is true, at the latest one second after the deadline.", "quantifier": "every start and end clock value and every timeout", "why_tests_cant": "only clock values with a nanosecond borrow show the delay", "anchors": ["lib/flckutil.h:SUB_TIMESPEC,IS_OVER_TIMESPEC"]}
{"id": "C15", "title": "Reader/writer exclusion of one lock word", "statement": "For one locked range, at every instant either nobody holds it, or any number of readers hold it, or exactly one writer holds it and no reader does.", "quantifier": "every number of threads and every interleaving of their loads and compare-and-swaps in read-lock, write-lock and unlock", "why_tests_cant": "depends on the schedule of single memory accesses", "anchors": ["lib/flckbaselist.tcc:fl_rdlock_rwlock,fl_tryrdlock_rwlock,fl_timedrdlock_rwlock,fl_wrlock_rwlock,fl_trywrlock_rwlock,fl_timedwrlock_rwlock,fl_unlock_rwlock"]}
{"id": "C16", "title": "Range overlap test", "statement": "Two lock requests on a file are treated as touching the same range exactly when their byte ranges intersect, for ranges of positive length that do not run past 2^64; the test is symmetric and an equal range always matches.", "quantifier": "every pair of offsets and lengths", "why_tests_cant": "64-bit arithmetic corner cases", "anchors": ["lib/flcklistofflock.h:fl_compare_list_base(PFLOFFLOCK)"]}
{"id": "C17", "title": "Range overlap test for ranges reaching the end of the address space", "statement": "Ranges whose end exceeds 2^64 (for example length SIZE_MAX meaning 'to the end') still conflict with every range they contain.", "quantifier": "every pair of offsets and lengths", "why_tests_cant": "64-bit wrap-around corner cases", "anchors": ["lib/flcklistofflock.h:fl_compare_list_base(PFLOFFLOCK)"]}
{"id": "C18", "title": "Read/write lock exclusion through the API for equal-or-disjoint ranges", "statement": "If the ranges used on a file are pairwise equal or disjoint, then whenever one thread holds a write lock on a range of the file nobody else holds any lock on an intersecting range of it.", "quantifier": "every number of threads, processes, files and ranges, every interleaving of the library's critical sections and lock-word accesses, deaths outside the library's critical windows", "why_tests_cant": "needs all schedules and all histories of list and pool contents", "anchors": ["lib/flckshm.cc:FlShm::RawLock(FLCKLOCKTYPE,int,off_t,size_t,time_t)", "lib/flcklistfilelock.cc:FlListFileLock::rawlock", "lib/flcklistofflock.cc:FlListOffLock::rawlock,dolock"]}
{"id": "C19", "title": "Read/write lock exclusion through the API for arbitrary ranges", "statement": "Whenever one thread holds a write lock on a range of a file, nobody else holds any lock on an intersecting range of the same file, also when ranges partially overlap.", "quantifier": "every history of lock and unlock calls with arbitrary offsets and lengths", "why_tests_cant": "needs three or more partially overlapping ranges in particular orders", "anchors": ["lib/flckbaselist.tcc:fl_list_base::find", "lib/flcklistfilelock.cc:FlListFileLock::rawlock:86-104"]}
{"id": "C20", "title": "rwlock unlock releases only the caller's own hold", "statement": "For an open descriptor, fullock_rwlock_unlock returns 0 only by releasing one lock previously granted to the same thread on the same descriptor; otherwise it returns an error and no thread's hold changes.", "quantifier": "every reachable state and every caller, descriptor and range", "why_tests_cant": "needs all histories", "anchors": ["lib/flcklistofflock.cc:FlListOffLock::rawlock:73-112", "lib/flcklistlocker.h:fl_compare_list_base"]}
{"id": "C21", "title": "A granted lock can be released with the same arguments", "statement": "A thread that was granted a lock on (descriptor, offset, length) and then calls unlock with the same arguments gets 0 and no longer holds it; holds for equal-or-disjoint ranges and every history.", "quantifier": "every history of other threads' operations in between", "why_tests_cant": "needs all histories", "anchors": ["lib/flckshm.cc:FlShm::RawLock:792-835", "lib/flcklistfilelock.cc:FlListFileLock::rawlock:66-85"]}
{"id": "C22", "title": "islocked answers for the given range", "statement": "fullock_rwlock_islocked(fd, offset, length) is true exactly when some thread holds a lock on an intersecting range of the file.", "quantifier": "every reachable state and every range", "why_tests_cant": "tests query only the range they locked", "anchors": ["lib/flckshm.cc:FlShm::IsLocked", "lib/flcklistfilelock.cc:FlListFileLock::is_locked"]}
{"id": "C23", "title": "A failed lock attempt leaves no trace", "statement": "A try or timed lock call that returns EBUSY or ETIMEDOUT leaves every other thread's holds and all resource pools as they were before the call.", "quantifier": "every reachable state, every call", "why_tests_cant": "leaks accumulate only over long histories", "anchors": ["lib/flcklistofflock.cc:FlListOffLock::rawlock:151-163", "lib/flcklistfilelock.cc:FlListFileLock::rawlock:120-152", "lib/flckshm.cc:FlShm::RawLock:755-788"]}
{"id": "C24", "title": "A lock call that ran out of resources leaves no trace", "statement": "A lock call that returns ENOLCK leaves the set of locked files as it was: afterwards a file that nobody holds or waits for is not reported as locked and keeps no pool entries.", "quantifier": "every reachable state with an exhausted pool", "why_tests_cant": "needs pool exhaustion at a particular moment", "anchors": ["lib/flcklistofflock.cc:114-121", "lib/flcklistfilelock.cc:88-96", "lib/flckshm.cc:755-770"]}
{"id": "C25", "title": "Pool conservation", "statement": "With the default free mode, every file, range and locker entry is at every moment in exactly one place (free, in use once, or in the hands of one running call); when no lock is held or awaited after successful calls, all entries are free again.", "quantifier": "every interleaving of lock/unlock/recovery calls of any number of threads", "why_tests_cant": "leaks and double frees need long or unlucky histories", "anchors": ["lib/flckshm.cc:731-838", "lib/flcklistfilelock.cc", "lib/flcklistofflock.cc:321-355"]}
{"id": "C26", "title": "Pool conservation when the free mode is changed", "statement": "Changing the free mode with fullock_set_free_mode / environment while entries are kept never loses pool entries.", "quantifier": "every history containing mode changes (also different modes in different processes)", "why_tests_cant": "needs a specific history of mode changes", "anchors": ["lib/flckshm.cc:818-832", "lib/flcklistfilelock.h:initialize"]}
{"id": "C27", "title": "Locks of dead processes and closed descriptors are released", "statement": "After a recovery pass no read/write lock remains held by a process that no longer exists or on a descriptor that the holder has closed, and the pool entries of those locks are free again.", "quantifier": "every reachable state and every pattern of dead processes and closed descriptors", "why_tests_cant": "needs all populations of the lists and all process states", "anchors": ["lib/flckshm.cc:CheckFileLockDeadLock", "lib/flcklistofflock.cc:check_dead_lock", "lib/flcklistlocker.cc:check_dead_lock", "lib/flckutil.cc:GetFileDevNode"]}
{"id": "C28", "title": "Locks of a dead thread of a live process are released", "statement": "After a recovery pass no read/write lock remains held by a thread that has terminated (README: 'Automatically unlock when the thread is terminated while holding the lock').", "quantifier": "every reachable state and every pattern of dead threads", "why_tests_cant": "depends on which of process, thread and descriptor are gone", "anchors": ["lib/flckutil.cc:GetFileDevNode(pid,tid,fd):292-344", "README.md"]}
{"id": "C29", "title": "Recovery never releases locks of live holders", "statement": "A recovery pass leaves every read/write lock of a live thread whose descriptor is still open on that file held, and keeps every waiting call registered.", "quantifier": "every reachable state", "why_tests_cant": "needs all populations of the lists", "anchors": ["lib/flcklistlocker.cc:check_dead_lock", "lib/flckshm.cc:CheckFileLockDeadLock"]}
{"id": "C30", "title": "Crash safety of a read/write lock at every instruction", "statement": "If a process dies at any instruction inside lock or unlock, recovery restores the lock: afterwards waiting threads can acquire it and live holders keep exclusion.", "quantifier": "every crash point", "why_tests_cant": "crash points are single instructions", "anchors": ["lib/flcklistofflock.cc:73-112,151-166", "lib/flcklistofflock.cc:check_dead_lock:240-319"]}
{"id": "C31", "title": "Descriptor-less locks", "statement": "Lock ids made with FLCK_RWLOCK_NO_FD(i) for different i are independent locks.", "quantifier": "every pair of ids", "why_tests_cant": "needs a pair of ids, not a single id", "anchors": ["lib/fullock.h:FLCK_RWLOCK_NO_FD", "lib/flckshm.cc:743-752"]}
{"id": "C32", "title": "List guard mutual exclusion with crash takeover", "statement": "The internal guard of the shared lists is held by at most one live thread at any instant, even when guard holders die at arbitrary instructions and others take over.", "quantifier": "every number of threads, every interleaving, every crash point", "why_tests_cant": "needs all schedules and crash points", "anchors": ["lib/flckbaselist.tcc:fl_lock_lockid,fl_unlock_lockid"]}
{"id": "C33", "title": "A dead guard holder does not block the library", "statement": "If the holder of the list guard is dead, any live thread that tries to take it and keeps running alone gets it after a bounded number of its own steps.", "quantifier": "every state in which the holder is dead", "why_tests_cant": "liveness over all states", "anchors": ["lib/flckbaselist.tcc:fl_lock_lockid:59-92"]}
{"id": "C34", "title": "Waiting has no undefined behaviour", "statement": "However long a thread waits for a guard or lock, the wait loop performs no signed integer overflow.", "quantifier": "every length of wait", "why_tests_cant": "needs more than 2^31 loop iterations", "anchors": ["lib/flckbaselist.tcc:fl_lock_lockid:cnt,fl_rdlock_rwlock:cnt,fl_wrlock_rwlock:cnt,fl_lock_mutex:cnt"]}
{"id": "C35", "title": "Shared list operations", "statement": "The shared-memory list operations behave as operations on sequences: insert puts an entry first, retrieve removes the first, cutoff removes exactly the given entry and fails without change if it is absent, find returns the first and rfind the last matching entry; no entry is lost, duplicated or reordered.", "quantifier": "every list of every length, every memory content elsewhere", "why_tests_cant": "needs every list shape", "anchors": ["lib/flckbaselist.tcc:fl_list_base::insert_list,retrieve_list,cutoff_list,find,rfind,initialize"]}
{"id": "C36", "title": "List integrity at every crash point", "statement": "If a process dies between any two memory writes of a list operation, every list is still well formed and equal to its content before or after the operation; at most the one entry being moved is in no list.", "quantifier": "every list, every operation, every crash point", "why_tests_cant": "crash points are single writes", "anchors": ["lib/flckbaselist.tcc:576-662"]}
{"id": "C37", "title": "Position independence", "statement": "The effect of an operation on the shared area does not depend on the address at which the calling process has mapped it.", "quantifier": "every mapping address and every memory content", "why_tests_cant": "a test has only the addresses the OS happens to give", "anchors": ["lib/flckshm.h:to_rel,to_abs", "lib/flckbaselist.tcc"]}
{"id": "C38", "title": "Signal wakes exactly the longest waiter", "statement": "fullock_cond_signal wakes exactly one waiting call, the one that has been waiting longest, if there is one, and none otherwise.", "quantifier": "every population of waiters and every history", "why_tests_cant": "needs all populations and orders", "anchors": ["lib/flcklistncond.cc:FlListNCond::rawlock", "lib/flckbaselist.tcc:rfind"]}
{"id": "C39", "title": "Broadcast wakes all waiters", "statement": "fullock_cond_broadcast wakes every call that is waiting on the condition at that moment and no call waiting on another condition.", "quantifier": "every population of waiters", "why_tests_cant": "needs all populations", "anchors": ["lib/flcklistncond.cc:FlListNCond::rawlock"]}
{"id": "C40", "title": "No lost wakeup", "statement": "If a thread signals while it owns the mutex that the waiters passed, every wait call that has released that mutex and not yet been woken is counted as waiting: the signal wakes the longest-waiting of them.", "quantifier": "every interleaving of any number of wait, signal, lock and unlock calls at memory-access granularity", "why_tests_cant": "race windows between registering, unlocking and sleeping", "anchors": ["lib/flcklistwaiter.cc:FlListWaiter::rawlock", "lib/flcklistncond.cc"]}
{"id": "C41", "title": "A successful wait returns with the mutex held", "statement": "When a cond wait or timedwait call returns 0, the calling thread owns the mutex.", "quantifier": "every interleaving", "why_tests_cant": "needs all schedules", "anchors": ["lib/flcklistwaiter.cc:52-106"]}
{"id": "C42", "title": "A timed-out wait returns with the mutex held", "statement": "When fullock_cond_timedwait returns ETIMEDOUT the calling thread owns the mutex (as with pthread_cond_timedwait).", "quantifier": "every interleaving and timeout", "why_tests_cant": "needs contention on the mutex at the moment of the timeout", "anchors": ["lib/flcklistwaiter.cc:83-106"]}
{"id": "C43", "title": "A signal is not swallowed by a timed-out waiter", "statement": "A signal sent while at least one call is still blocked on the condition unblocks a call that then returns 0, not one that has already timed out.", "quantifier": "every interleaving", "why_tests_cant": "race between timeout and signal", "anchors": ["lib/flcklistncond.cc", "lib/flcklistwaiter.cc"]}
{"id": "C44", "title": "Waiting calls use and return exactly one waiter entry", "statement": "Every cond wait call takes one waiter entry and gives it back before returning, whatever its outcome; a call failing with ENOLCK, EINVAL or EPERM leaves the mutex as it was.", "quantifier": "every interleaving and outcome", "why_tests_cant": "leaks show only over long histories", "anchors": ["lib/flcklistncond.cc:59-152", "lib/flcklistwaiter.cc"]}
{"id": "C45", "title": "Layout of the shared file", "statement": "For all permitted area sizes the header and the six entry areas lie inside the file, are 8-byte aligned, pairwise disjoint, and the size computation does not overflow.", "quantifier": "every permitted combination of the counts", "why_tests_cant": "2^80 combinations", "anchors": ["lib/flckshminit.cc:InitializeShmFile:231-302", "lib/flckutil.h:ALIGNMENT"]}
{"id": "C46", "title": "Initial pools", "statement": "After initialisation each pool contains exactly the configured number of entries, each once, and all lock lists are empty.", "quantifier": "every permitted combination of counts", "why_tests_cant": "needs all counts", "anchors": ["lib/flckshminit.cc:MakeListLocker..,InitializeShmFile", "lib/flckbaselist.tcc:initialize"]}
{"id": "C47", "title": "The shared file is never re-initialised under an attached process", "statement": "As long as no process forks, the shared file is truncated or re-initialised only at moments when no other process is attached to it.", "quantifier": "every number of processes and every interleaving of their open, lock, initialise, map, close and exit steps", "why_tests_cant": "start-up races between processes", "anchors": ["lib/flckshminit.cc:FlShm::Attach,Detach,InitializeShm,InitializeShmFile", "lib/flckutil.cc:RawFileLock"]}
{"id": "C48", "title": "The shared file is never re-initialised under a forked child", "statement": "The shared file is never truncated or re-initialised while a forked child that inherited the mapping is still running.", "quantifier": "every interleaving with fork", "why_tests_cant": "needs the parent to exit and a new process to start while the child lives", "anchors": ["lib/flckshminit.cc:InitializeShm", "lib/flckshm.cc:PreforkHandler"]}
{"id": "C49", "title": "Concurrent start-up succeeds", "statement": "When two processes start at the same time and no system call fails, both attach to the shared file.", "quantifier": "every interleaving of two first starts", "why_tests_cant": "start-up race of a few instructions", "anchors": ["lib/flckshminit.cc:InitializeShm:115-229"]}
{"id": "C50", "title": "Environment configuration stays in range", "statement": "Whatever the environment variables contain, the configured area counts stay within their documented minimum and maximum, and an invalid value leaves the previous setting unchanged.", "quantifier": "every environment content (arbitrary byte strings)", "why_tests_cant": "unbounded string inputs", "anchors": ["lib/flckshm.cc:FlShm::LoadEnv"]}
{"id": "C51", "title": "fullock_reinitialize accepts exactly the valid counts", "statement": "Re-initialisation with explicit counts succeeds in setting them exactly when each given count is within its documented range (0 selecting the default), and a rejected call changes nothing.", "quantifier": "every combination of the arguments", "why_tests_cant": "needs all combinations of default, valid and invalid counts", "anchors": ["lib/flckshm.cc:FlShm::ReInitializeObject"]}
{"id": "C52", "title": "Behaviour without a mapping", "statement": "When the shared area is not usable, every lock, unlock, wait and signal call whose names are given returns 0 in the allow modes and fails in the deny modes, and never touches shared state. The same holds of lock and unlock calls for descriptors that belong to no file; the question whether something is locked is then answered with no.", "quantifier": "every mode, call and mapping state", "why_tests_cant": "needs every combination", "anchors": ["lib/flckshm.cc:CheckAttach,RawLock,IsLocked"]}
{"id": "C53", "title": "Mode switches and robust count", "statement": "The robust, nomap and free mode setters return the previous value and change nothing else; a robust loop count below the minimum is refused without change.", "quantifier": "every previous state and argument", "why_tests_cant": "needs all arguments", "anchors": ["lib/flckshm.cc:SetRobustMode..SetRobustLoopCnt", "lib/fullock.cc"]}
{"id": "C54", "title": "Path normalisation", "statement": "For an absolute path without '..' above the root, the normalised path is the path obtained by resolving '.', '..' and repeated slashes: it is absolute and contains no empty, '.' or '..' component.", "quantifier": "every path string", "why_tests_cant": "unbounded inputs", "anchors": ["lib/flckutil.cc:GetRealPath"]}
{"id": "C55", "title": "Path normalisation above the root", "statement": "A path that climbs above the root is rejected without undefined behaviour.", "quantifier": "every path string", "why_tests_cant": "needs specific inputs", "anchors": ["lib/flckutil.cc:GetRealPath:150-160"]}
{"id": "C56", "title": "File helper completeness", "statement": "A successful positional read or write transfers exactly the requested bytes at the requested positions whatever short counts and interruptions the OS produces, and filling with zeros clears exactly the requested region and nothing else.", "quantifier": "every sequence of OS results and every size", "why_tests_cant": "short transfers and EINTR cannot be provoked exhaustively", "anchors": ["lib/flckutil.cc:flck_pread,flck_pwrite,flck_fill_zero"]}
{"id": "C57", "title": "Event buffer contains only bytes that were read", "statement": "The buffer returned for watch events contains only bytes actually delivered by the OS.", "quantifier": "every sequence of OS read results", "why_tests_cant": "needs a particular EAGAIN pattern", "anchors": ["lib/flckutil.cc:flck_read:424-474"]}
{"id": "C58", "title": "Event scan", "statement": "Scanning a well-formed event buffer reports an event exactly when some record is a close event for the watched file, and reads no byte outside the buffer.", "quantifier": "every well-formed buffer", "why_tests_cant": "unbounded inputs", "anchors": ["lib/flckthread.cc:FlckThread::CheckEvent"]}
{"id": "C59", "title": "Process-state cache is transparent", "statement": "During one recovery pass the cached answers about processes and descriptors equal the answers the operating system gave for the same question.", "quantifier": "every sequence of questions", "why_tests_cant": "needs a particular combination of owner and lock id", "anchors": ["lib/flckpidcache.h"]}
{"id": "C60", "title": "Worker control flags", "statement": "Once the worker has been told to exit or has finished, the exit request cannot be undone by a repeated exit request, and the worker's state is always one of the four documented values.", "quantifier": "every interleaving of control calls and worker steps", "why_tests_cant": "needs all interleavings", "anchors": ["lib/flckthread.cc:set_thread_*,WorkerProc,Exit"]}
{"id": "C61", "title": "Recursive rwlock object: same thread never deadlocks itself", "statement": "Using the recursive rwlock class, a thread that already holds a covering lock can lock again (read in read or write, write in write) without touching the shared lock, and releasing all objects releases the shared lock exactly once.", "quantifier": "every sequence of lock and unlock calls on any number of objects of one range", "why_tests_cant": "needs all nestings and orders", "anchors": ["lib/rwlockrcsv.cc:FLRwlRcsv::RawReadLock,RawWriteLock,RawUnlock"]}
{"id": "C62", "title": "Recursive rwlock object: a locked object is covered by a shared lock", "statement": "Whenever a recursive rwlock object is locked, the calling process holds a shared lock covering the object's whole range.", "quantifier": "every sequence of lock and unlock calls with arbitrary ranges", "why_tests_cant": "needs nested different ranges", "anchors": ["lib/rwlockrcsv.cc", "lib/rwlockrcsv.h:compare"]}
{"id": "C63", "title": "A failed try-lock is explained", "statement": "A try-read-lock on a range fails with EBUSY only if a writer held the range at an instant during the call, and a try-write-lock only if some thread held it.", "quantifier": "every interleaving of lock, try-lock and unlock calls of any number of threads on one range", "why_tests_cant": "the failing schedule needs two readers interleaved between one load and one compare-and-swap", "anchors": ["lib/flckbaselist.tcc:fl_tryrdlock_rwlock,fl_trywrlock_rwlock"]}
{"id": "C64", "title": "Failing calls never lose pool entries", "statement": "With the default free mode and no deaths, a range entry that was taken from the pool returns to the pool, also when lock calls fail with EBUSY or ETIMEDOUT.", "quantifier": "every interleaving of succeeding and failing calls", "why_tests_cant": "the losing schedule interleaves the three cleanup sections of a failed call with unlock calls of two other threads", "anchors": ["lib/flcklistofflock.cc:FlOffLock::rawlock,dolock", "lib/flcklistfilelock.cc:FlFileLock::rawlock", "lib/flckshm.cc:FlShm::RawLock"]}
{"id": "C65", "title": "A lock call that returns 0 has granted a lock", "statement": "Whenever a read or write lock call returns 0, there was an instant during the call at which the lock with exactly these arguments became held by the caller.", "quantifier": "every reachable state, every argument and every interleaving", "why_tests_cant": "needs all states and all descriptors", "anchors": ["lib/flckshm.cc:FlShm::RawLock:731-838"]}
{"id": "C66", "title": "Closing a descriptor during a lock call", "statement": "Exclusion between lock holders does not depend on the callers keeping their descriptors open while a lock call runs.", "quantifier": "every interleaving of lock calls, recovery passes and closing descriptors", "why_tests_cant": "a recovery pass has to hit a waiting call between registration and acquisition", "anchors": ["lib/flckutil.cc:FlckUtil::FindThreadProcess, GetFileDevNode", "lib/flcklistofflock.cc:check_dead_lock"]}
{"id": "C67", "title": "islocked after recovery", "statement": "After a process has died inside a lock call and a recovery pass has run, islocked is false for a file that nobody holds or waits for.", "quantifier": "every crash point", "why_tests_cant": "needs a crash between two particular stores", "anchors": ["lib/flcklistfilelock.cc:100-153", "lib/flcklistfilelock.cc:is_locked"]}
{"id": "C68", "title": "A death never loses pool entries", "statement": "When a process dies inside a lock or unlock call, its pool entries return to the pools at the latest with the next recovery pass or unlock on the file.", "quantifier": "every crash point outside the lock-word windows", "why_tests_cant": "needs a crash between two particular stores followed by an unlock of another thread", "anchors": ["lib/flcklistofflock.cc:78-111", "lib/flckshm.cc:751-780"]}
{"id": "C69", "title": "A signal is not consumed by a dead waiter", "statement": "When the owner of the mutex signals a condition while a live thread is blocked on it, a live thread is woken, also if other threads died while waiting and no recovery pass has run yet.", "quantifier": "every interleaving with deaths of waiting threads", "why_tests_cant": "needs a crash inside a blocking call followed by a signal before any recovery", "anchors": ["lib/flcklistncond.cc:87-105", "lib/flckbaselist.tcc:682-702"]}
{"id": "C70", "title": "No spurious wakeups", "statement": "A wait call returns 0 only if a signal or broadcast on that condition woke this very call while it ran, and the result of every wait call is one of 0, ETIMEDOUT, EBUSY, EPERM, ENOLCK, EINVAL.", "quantifier": "every interleaving of wait, signal, broadcast, mutex and recovery calls with deaths", "why_tests_cant": "absence of an event over all schedules", "anchors": ["lib/flcklistwaiter.cc:FlWaiter::rawlock", "lib/flcklistncond.cc:FlNCond::rawlock"]}
{"id": "C71", "title": "A woken waiter returns", "statement": "A wait call that has been woken returns 0 within a fixed number of its own steps when the mutex and the list guard are free.", "quantifier": "every reachable state", "why_tests_cant": "progress from every reachable state", "anchors": ["lib/flcklistwaiter.cc:87-105", "lib/flcklistncond.cc:131-150"]}
{"id": "C72", "title": "Recovery clears dead waiters", "statement": "After a recovery pass over the conditions no waiter list contains an entry of a thread that was dead when the pass started, whatever runs concurrently.", "quantifier": "every interleaving of the pass with other calls", "why_tests_cant": "needs concurrent list changes during the pass", "anchors": ["lib/flckshm.cc:FlShm::CheckCondDeadLock", "lib/flcklistncond.cc:check_dead_lock", "lib/flcklistwaiter.cc:check_dead_lock"]}
{"id": "C73", "title": "A process joins only a completely initialised file", "statement": "A process that maps the shared file without initialising it itself finds it completely initialised.", "quantifier": "every interleaving of starts, lock calls, exits, crashes, failing system calls and forks", "why_tests_cant": "needs a crash of the initialising process between two stores while another process waits", "anchors": ["lib/flckshminit.cc:FlShm::InitializeShm:160-201", "lib/flckshminit.cc:FlShm::Attach"]}
{"id": "C74", "title": "No call touches shared memory that is not mapped", "statement": "No lock call and no start of the library accesses the shared memory while it is not mapped or while the file is empty.", "quantifier": "every interleaving of starts, lock calls, exits, crashes, failing system calls and forks", "why_tests_cant": "two threads of one process must race inside the attach code", "anchors": ["lib/flckshm.cc:FlShm::CheckAttach:646-659", "lib/flckshminit.cc:FlShm::Attach:48-86"]}
{"id": "C75", "title": "Making the working directory", "statement": "When the library has made (or found) the directory named by an absolute path, every directory on the way to it exists; whatever the outcome, nothing that existed changes, only directories on that way are created, and the umask of the process is as before.", "quantifier": "every path, file system state and outcome of stat and mkdir", "why_tests_cant": "quantifies over all paths and file systems", "anchors": ["lib/flckutil.cc:MakeWorkDirectory:183-237"]}
{"id": "C76", "title": "Every configured size gives a proper file", "statement": "Whatever start and re-initialisation calls a process makes, the area counts it ends up with describe a shared file whose areas are disjoint and lie inside the file.", "quantifier": "every sequence of starts, re-initialisations and mode switches with arbitrary arguments and environments", "why_tests_cant": "needs particular huge arguments whose byte size wraps around", "anchors": ["lib/flckshm.cc:FlShm::ReInitializeObject:295-305", "lib/flckshminit.cc:InitializeShmFile:244-260"]}
{"id": "C77", "title": "Retry modes attach as soon as possible", "statement": "In the retry modes a lock call made while the shared file is not attached attaches it whenever the file can be opened.", "quantifier": "every reachable configuration", "why_tests_cant": "depends on the combination of automatic start, directory state and mode", "anchors": ["lib/flckshm.cc:FlShm::CheckAttach:646-659", "lib/flckshm.cc:FlShm::InitializeObject:236-291"]}
{"id": "C78", "title": "The shared file lies directly in the working directory", "statement": "Whatever the environment variables and re-initialisation arguments contain, the attached file is an entry of the configured directory: its name contains no slash. The directory is the one that FLCKDIRPATH names by an absolute path (not the root, nor above it), or without it .fullock in /var/lib/antpickax where that exists and in /tmp where it does not, provided it is there or can be made.", "quantifier": "every reachable configuration", "why_tests_cant": "quantifies over all strings and call sequences", "anchors": ["lib/flckshm.cc:FlShm::InitializeObject:236-291", "lib/flckshm.cc:FlShm::LoadEnv:1194-1207"]}
{"id": "C79", "title": "The dead-process check is triggered by exactly the delivered close events", "statement": "The worker starts its dead-process check after reading from the notification descriptor exactly when one of the events just delivered says that the watched file was closed by somebody.", "quantifier": "every sequence of reads from the descriptor, failing ones included", "why_tests_cant": "depends on bytes left in the buffer by earlier reads and on partial reads", "anchors": ["lib/flckthread.cc:CheckEvent:268-316"]}
{"id": "C80", "title": "File helpers return", "statement": "Reading, writing and zero-filling helpers return after finitely many answers of the operating system.", "quantifier": "every sequence of operating system answers", "why_tests_cant": "needs an endless sequence of unusual answers", "anchors": ["lib/flckutil.cc:flck_pread,flck_pwrite,flck_fill_zero"]}
{"id": "C81", "title": "Interrupted transfers are resumed", "statement": "A transfer that a signal interrupts is resumed and completes like one that is not interrupted.", "quantifier": "every sequence of operating system answers", "why_tests_cant": "needs a signal in the middle of the transfer", "anchors": ["lib/flckutil.cc:flck_pread,flck_pwrite,flck_fill_zero"]}
{"id": "C82", "title": "Buffers are measured with the system's page size", "statement": "The page size used to measure the event buffer is the one the operating system reports.", "quantifier": "every answer of the operating system", "why_tests_cant": "depends on the platform", "anchors": ["lib/flckutil.cc:GetSystemPageSize"]}
{"id": "C83", "title": "Uncached liveness probes are right", "statement": "When a pass uses no cache, the answer for a thread is 'gone' exactly when the operating system knows no such thread in that process, and a lock without descriptor lives as long as its thread.", "quantifier": "every process table", "why_tests_cant": "quantifies over all process tables", "anchors": ["lib/flckpidcache.h", "lib/flckutil.cc:244-344"]}
{"id": "C84", "title": "An exit request stands", "statement": "Inside one process, once the worker has been told to exit (or has finished), no call of a control method makes the flag say 'run' or 'stopped' again.", "quantifier": "every interleaving of control calls of several threads with the worker", "why_tests_cant": "needs a thread suspended between the test and the exchange", "anchors": ["lib/flckthread.cc:Run,Stop,Exit,set_val_thread_cntrl_flag"]}
{"id": "C85", "title": "Nobody uses the deleted worker object", "statement": "When the library is used one call at a time, no thread accesses the worker object after it was deleted.", "quantifier": "every execution with forks at any point and any number of re-initialisations", "why_tests_cant": "needs fork after re-initialisation and a late worker", "anchors": ["lib/flckthread.cc:~FlckThread,Exit", "lib/flckshminit.cc:203-226,383-387", "lib/flckshm.cc:PreforkHandler:631-641"]}
{"id": "C86", "title": "At most one worker per process", "statement": "At any moment at most one worker thread of a process runs code of the library.", "quantifier": "every execution with forks at any point and any number of re-initialisations", "why_tests_cant": "needs fork after re-initialisation", "anchors": ["lib/flckshminit.cc:203-226", "lib/flckshm.cc:PreforkHandler:631-641"]}
{"id": "C87", "title": "A cancelled worker ends", "statement": "A worker with a pending cancellation request ends after a bounded number of its own steps, wherever the request finds it.", "quantifier": "every reachable state of the worker", "why_tests_cant": "quantifies over all places the request can arrive at", "anchors": ["lib/flckthread.cc:WorkerProc,CleanupHandler,Exit"]}
{"id": "C88", "title": "Recursive rwlock object: a call never waits for a mutex of its own process that nobody will release", "statement": "A lock or unlock call on a recursive rwlock object, with no other call running in the process, returns or waits for another process's lock; it never waits for the mutex of the object list for ever.", "quantifier": "every sequence of calls on any number of objects and any answers of the shared lock layer", "why_tests_cant": "needs a refused write lock while another object of the thread reads", "anchors": ["lib/rwlockrcsv.cc:RawWriteLock,StackLock,StackUnlock"]}
{"id": "C89", "title": "Recursive rwlock object: destroyed objects are not referenced", "statement": "After an object was destroyed, neither the list of lock holders nor a remaining object points to it.", "quantifier": "every sequence of calls on any number of objects and any answers of the shared lock layer", "why_tests_cant": "needs a failing release inside a destructor", "anchors": ["lib/rwlockrcsv.cc:~FLRwlRcsv,RawUnlock"]}
{"id": "C90", "title": "Recursive rwlock object: the list of holders is accessed under its mutex", "statement": "Every access of a call to the process-wide list of lock objects happens while the call holds the mutex of that list.", "quantifier": "every sequence of calls and any answers of the shared lock layer", "why_tests_cant": "a race detector sees only executed paths", "anchors": ["lib/rwlockrcsv.cc:RawReadLock,RawWriteLock,RawUnlock"]}
{"id": "C91", "title": "Recursive rwlock object: no waiting for a shared lock with the process mutex held", "statement": "While a call waits in the shared lock layer, and after it returned, it does not hold the mutex of the object list.", "quantifier": "every call in every reachable state", "why_tests_cant": "needs a blocking shared lock at every point", "anchors": ["lib/rwlockrcsv.cc:StackLock,StackUnlock,RawUnlock,RawReadLock,RawWriteLock"]}
{"id": "C92", "title": "Recursive rwlock object: a refused change of the lock kind keeps the old lock", "statement": "A call that asks a locked object for the other kind of lock and fails leaves the object locked as it was.", "quantifier": "every reachable state and any answers of the shared lock layer", "why_tests_cant": "needs a refused request after a release", "anchors": ["lib/rwlockrcsv.cc:RawReadLock,RawWriteLock"]}
{"id": "C93", "title": "Recursive rwlock object: calls on one object leave the others locked as they were", "statement": "A returning call on one object changes neither the range nor the locked state of another object, and an object locked for writing stays so.", "quantifier": "every sequence of calls with arbitrary ranges and any answers of the shared lock layer", "why_tests_cant": "needs every master and pending relation among objects", "anchors": ["lib/rwlockrcsv.cc"]}
{"id": "C94", "title": "Recursive rwlock object: results are truthful", "statement": "A lock call that reports success leaves its object locked, for writing if that was asked; an unlock call that reports success leaves it unlocked, and it fails only when the shared lock layer refused a release.", "quantifier": "every sequence of calls with arbitrary ranges and any answers of the shared lock layer", "why_tests_cant": "needs every master and pending relation among objects", "anchors": ["lib/rwlockrcsv.cc"]}
{"id": "C95", "title": "Recursive rwlock object: any locked object can be unlocked", "statement": "As long as the shared lock layer never refuses to release a lock that is held, unlocking an object succeeds and only held locks are released.", "quantifier": "every sequence of calls with arbitrary ranges", "why_tests_cant": "needs crossing ranges", "anchors": ["lib/rwlockrcsv.cc:RawWriteLock,RawUnlock", "lib/rwlockrcsv.h:compare", "lib/flcklistfilelock.cc:72-79"]}
{"id": "C96", "title": "Recovery pass: live holders lose nothing", "statement": "A recovery pass leaves every lock, mutex and wait of a holder that is alive during the whole pass as it was, in the same range and mode; a file lock's holder is alive when its descriptor is open on that file, or its thread exists where no descriptor is used or may be looked at.", "quantifier": "every content of the shared lists and every process table changing between any two questions of the pass", "why_tests_cant": "needs processes dying and identifiers being reused in the middle of a pass", "anchors": ["lib/flckshm.cc:CheckProcessDead,CheckFileLockDeadLock,CheckMutexDeadLock,CheckCondDeadLock", "lib/flcklistlocker.cc:check_dead_lock", "lib/flckutil.cc:GetFileDevNode,FindThreadProcess", "lib/flckpidcache.h"]}
{"id": "C97", "title": "Recovery pass: holders gone lose everything", "statement": "After a recovery pass nothing is held, owned or waited for by a holder that was gone during the whole pass.", "quantifier": "every content of the shared lists and every process table changing between any two questions of the pass", "why_tests_cant": "needs a dead thread with a lock without descriptor and a mutex", "anchors": ["lib/flckshm.cc:CheckProcessDead", "lib/flckutil.cc:GetFileDevNode,FindThreadProcess", "lib/flckpidcache.h:set_no_device_cache,set_execution_cache"]}
{"id": "C98", "title": "Recovery pass: pools, entries and lock words stay right", "statement": "A recovery pass returns every entry it takes out of a list to its pool, leaves no file or range entry without holder unless protected, keeps every protected one, keeps each lock word equal to what its remaining holders hold, and adds no holder.", "quantifier": "every content of the shared lists and every process table changing between any two questions of the pass", "why_tests_cant": "needs every mixture of live and dead holders in one range", "anchors": ["lib/flckshm.cc:CheckFileLockDeadLock", "lib/flcklistfilelock.cc:check_dead_lock", "lib/flcklistofflock.cc:check_dead_lock", "lib/flcklistncond.cc:check_dead_lock"]}
{"id": "C99", "title": "Recovery by a waiting rwlock call is exact for its range", "statement": "With high robustness, the check a waiting lock call makes removes from its range the holders that are gone, keeps the caller and the live ones in their mode, returns the removed entries to the pool, keeps the lock word right and leaves the range unprotected.", "quantifier": "every set of holders of the range and every process table changing between any two questions", "why_tests_cant": "needs every mixture of live and dead holders in one range", "anchors": ["lib/flcklistofflock.cc:rwlock,check_dead_lock", "lib/flcklistlocker.cc:check_dead_lock"]}
{"id": "C100", "title": "Debug messages: level and mode", "statement": "A message of a level is written exactly when the mode is at least that level, to the debug file or else to standard error; the mode is always one of the four, setting it returns the old one, and bumping goes round the four in order.", "quantifier": "every sequence of debug calls setting valid modes, any answers of fopen and fclose", "why_tests_cant": "needs every order of mode changes, files and messages", "anchors": ["lib/flckdbg.h:FLCKPRINT", "lib/flckdbg.cc:SetFlckDbgCntrlMode,BumpupFlckDbgCntrlMode"]}
{"id": "C101", "title": "Debug messages: environment", "statement": "FLCKDBGMODE is understood as SILENT, ERR, WAN or INFO in any case and sets that mode; any other word is refused and changes neither mode nor file; on success the messages go to the file named by FLCKDBGFILE, or where they went when it is not set.", "quantifier": "every value of the two variables in every reachable state", "why_tests_cant": "needs arbitrary strings", "anchors": ["lib/flckdbg.cc:FlckDbgCntrlLoadEnv,FlckDbgCntrlLoadEnvName,FlckDbgCntrlLoadEnvFile"]}
{"id": "C102", "title": "Debug messages: only open files are written to", "statement": "No message is written to a debug file that has been closed, none is closed twice, and no file stays open that is not in use.", "quantifier": "every sequence of debug calls and any answers of fopen and fclose", "why_tests_cant": "needs a failing fclose", "anchors": ["lib/flckdbg.cc:UnsetFlckDbgCntrlFile"]}
{"id": "C103", "title": "Debug messages: a failed change of the file changes nothing", "statement": "When setting a new debug file fails the messages go where they went before.", "quantifier": "every reachable state, every path and any answers of fopen and fclose", "why_tests_cant": "needs a failing fopen", "anchors": ["lib/flckdbg.cc:SetFlckDbgCntrlFile"]}
{"id": "C104", "title": "Debug messages: safe while another thread changes the file", "statement": "A message is never written to a closed file or a null stream, whatever other threads do, and only when the mode shows its level.", "quantifier": "every interleaving of any number of threads writing messages and changing the file", "why_tests_cant": "needs a switch between reading the stream pointer and writing", "anchors": ["lib/flckdbg.h:LOW_FLCKPRINT", "lib/flckdbg.cc:UnsetFlckDbgCntrlFile,SetFlckDbgCntrlFile"]}
{"id": "C105", "title": "Signal and broadcast report an unknown condition", "statement": "A signal or broadcast on a condition that is in use returns success; on one that nobody has ever waited on it returns EINVAL; it returns nothing else, and a condition once in use stays in use.", "quantifier": "every reachable state, every schedule with deaths, recoveries and timeouts", "why_tests_cant": "needs a wait call creating the condition at every moment of the signal call", "anchors": ["lib/flckshm.cc:RawLock", "lib/flcklistncond.cc:signal,broadcast"]}
{"id": "C106", "title": "The end of the worker is recorded", "statement": "When the worker thread has ended, the control flag says finished; after an exit request that no Run or Stop is about to overwrite it goes on saying so.", "quantifier": "every interleaving of callers and workers in one process", "why_tests_cant": "needs the worker to end at every moment of a concurrent Run, Stop or Exit", "anchors": ["lib/flckthread.cc:WorkerProc,set_fin_thread_cntrl_flag"]}
{"id": "C107", "title": "A forked child has a worker of its own", "statement": "After fork in a process that has started its worker before, when the registered handlers have run without a failing system call, the worker control of the child says running and refers to a worker started in the child and not cancelled, whatever the parent was doing; with one handler six steps are enough.", "quantifier": "every reachable state of the parent, every interleaving of the new workers", "why_tests_cant": "needs a fork at every moment of the parent's life", "anchors": ["lib/flckshm.cc:PreforkHandler", "lib/flckthread.cc:ReInitializeThread"]}
{"id": "C108", "title": "A process is attached or detached, nothing between", "statement": "When no call is running in a process it has mapping, descriptor and shared lock, or none of them, and never the exclusive lock; a detach that has returned leaves none of them and reports success.", "quantifier": "any number of processes, deaths, forks and failing system calls, calls of one process not overlapping its own attach and detach", "why_tests_cant": "needs failures of every system call of an attach and other processes at every step", "anchors": ["lib/flckshminit.cc:InitializeShm,Detach,Destroy"]}
{"id": "C109", "title": "A refused read/write lock is explained by a conflicting lock", "statement": "When a try or timed lock on a file range returns EBUSY or ETIMEDOUT, at some moment of the call somebody had a lock on a common byte of the file that excludes it.", "quantifier": "every reachable state and schedule, deaths and recoveries included; true only when ranges are equal or disjoint", "why_tests_cant": "needs entries left behind by earlier calls and deaths at every moment of the call", "anchors": ["lib/flcklistfilelock.cc:rawlock", "lib/flcklistofflock.cc:rawlock"]}
{"id": "C110", "title": "A free range is locked at once", "statement": "When no call is running in a living thread, nobody has a conflicting lock and the pools are not empty, a lock call that runs alone returns success after seven steps and has the lock, whatever died before.", "quantifier": "every reachable state, ranges equal or disjoint, every lock mode and timeout", "why_tests_cant": "needs every history of locks, unlocks, deaths and recoveries before the call", "anchors": ["lib/flcklistfilelock.cc:rawlock", "lib/flcklistofflock.cc:rawlock"]}
{"id": "C111", "title": "A named mutex behaves as an atomic mutex", "statement": "Whatever programs can see of a named mutex (calls, results, deaths, in their order) an atomic mutex could have shown: each call takes effect at one instant between its start and its return, a lock is refused only while somebody else owns the mutex, an unlock by somebody else is refused, and a mutex is taken from an owner only after its death.", "quantifier": "every history of any number of threads; true unless a waiting thread dies between its two writes while giving the mutex up for a condition wait", "why_tests_cant": "needs an instant of effect for every call in every interleaving", "anchors": ["lib/flcklistnmtx.cc:rawlock,rawunlock,lock_restore,unlock_wait,check_dead_lock"]}
{"id": "C112", "title": "Read/write locks behave as an atomic lock table", "statement": "Whatever programs can see of read/write locks (calls, results, descriptors opened and closed, deaths, in their order) an atomic table of locks could have shown: each call takes effect at one instant between its start and its return, a lock is granted only if it conflicts with no lock of the table and refused only if it does, an unlock takes away one lock of the caller with these arguments or fails because there is none, islocked says no only if no lock of the file is in the table, and a lock is taken away without unlock only when its holder is gone.", "quantifier": "every history of any number of processes, threads, files and ranges, deaths and recovery passes included; true when ranges are equal or disjoint", "why_tests_cant": "needs an instant of effect for every call in every interleaving", "anchors": ["lib/flckshm.cc:RawLock", "lib/flcklistfilelock.cc:rawlock", "lib/flcklistofflock.cc:rawlock,check_dead_lock"]}
{"id": "C113", "title": "Named mutexes behave as a table of atomic mutexes", "statement": "Whatever programs can see of named mutexes (calls with names, results, deaths, in their order) a table with one atomic mutex per name could have shown, where names count up to their first 63 bytes: a first lock enters the name at one instant and locks it at a later one, every other call takes effect at one instant between its start and its return, unlocking a name nobody entered fails with EINVAL, and of the living threads at most one has a given name locked.", "quantifier": "every history of any number of threads and names; true unless a waiting thread dies between its two writes while giving the mutex up for a condition wait", "why_tests_cant": "needs an instant of effect for every call in every interleaving of lookups, registrations and lock attempts", "anchors": ["lib/flckshm.cc:Lock,Unlock,CheckNMtxDeadLock", "lib/flcklistnmtx.cc:rawlock,rawunlock"]}
{"id": "C114", "title": "A named lock is refused for lack of room only when the names are used up", "statement": "A lock call on a named mutex returns ENOLCK only if as many different names as the table has entries have been locked so far.", "quantifier": "every history of any number of threads and names; true up to one lost entry for every thread that died", "why_tests_cant": "needs threads that register and threads that die between taking an entry and entering the name", "anchors": ["lib/flckshm.cc:Lock", "lib/flckbaselist.tcc:retrieve_list"]}
{"id": "C115", "title": "A named mutex call that runs alone returns at once with the right answer", "statement": "When no call of a living thread is running, whatever happened before and whoever died where: a lock of a free name, or of a new name while the table has room, returns success after at most eight steps and the caller owns it; a new name without room gets ENOLCK; a try on a name somebody else owns gets EBUSY; an unlock by the owner returns success and frees the mutex; an unlock of an unknown name gets EINVAL, of somebody else's mutex EPERM. No call changes the owner of another name.", "quantifier": "every reachable state, every timing of deaths, every name and kind of lock", "why_tests_cant": "needs every history of locks, unlocks, registrations and deaths inside guarded sections before the call", "anchors": ["lib/flckshm.cc:Lock,Unlock", "lib/flcklistnmtx.cc:rawlock,rawunlock", "lib/flckutil.cc:fl_lock_lockid"]}
{"id": "C116", "title": "Named mutexes of dead threads can be had again", "statement": "When no call of a living thread is running, one recovery pass frees every named mutex whose owner is dead and no other and then ends; a blocking lock that looks for dead owners itself gets the mutex of a dead owner.", "quantifier": "every reachable state, every timing of deaths, any number of names", "why_tests_cant": "needs deaths at every instruction, also of the thread that was recovering or had the list locked", "anchors": ["lib/flckshm.cc:CheckMutexDeadLock", "lib/flcklistnmtx.cc:check_dead_lock,force_unlock,rawlock"]}
{"id": "C117", "title": "The owner of a named mutex can lock it again, however often it holds it already", "statement": "A thread that owns a named mutex and locks it again gets it, after a bounded number of its own steps and in every schedule, whatever the number of locks it has taken already.", "quantifier": "every schedule of any number of threads, every recursion depth including depths beyond the range of the 32-bit lock counter, the three kinds of lock", "why_tests_cant": "needs 2^31 locks of one mutex by one thread before anything goes wrong", "anchors": ["lib/flckbaselist.tcc:fl_lock_mutex,fl_trylock_mutex,fl_timedlock_mutex,fl_unlock_mutex", "lib/flckstructure.h:lockcnt"]}
{"id": "C118", "title": "Exclusion of a named mutex does not rest on its lock counter", "statement": "No two living threads own one named mutex at the same time, and a thread that has given it up is no longer recorded as owner, even if the lock counter wraps around or is damaged in any way.", "quantifier": "every schedule, every sequence of values of the lock counter", "why_tests_cant": "needs every possible content of the counter at every instruction", "anchors": ["lib/flckbaselist.tcc:fl_lock_mutex,fl_trylock_mutex,fl_timedlock_mutex,fl_unlock_mutex,fl_force_unlock_mutex"]}
{"id": "C119", "title": "Programs cannot tell the spin lock of the mutex list from an atomic lock", "statement": "Whatever programs see of calls on named mutexes (calls, results, deaths) with the list protected by the real spin lock, with its waiting loop, its look-up of long-time holders and its take-over from dead ones, they could also see if the list lock were taken and released in one instant: so, as long as no recovery pass races an exit or no condition wait is used, histories are those of a table of atomic mutexes, of the living threads at most one has locked a name, and ENOLCK appears only when names and deaths have used up the table.", "quantifier": "every interleaving of any number of threads at the level of single compare-and-swaps, deaths at any instant also inside the loops, as long as no loop counter reaches 2^31", "why_tests_cant": "needs every interleaving of the spin loops of several threads with deaths inside them", "anchors": ["lib/flckbaselist.tcc:fl_lock_lockid,fl_unlock_lockid", "lib/flckshm.cc:RawLock,CheckMutexDeadLock"]}
{"id": "C120", "title": "A named mutex call that runs alone gets past a dead holder of the list lock", "statement": "When no call of a living thread is running, whoever died where, also inside the list lock: each named mutex call that runs alone returns within 1005 times the number of steps it needs when the list lock is free, with the answers of C115; a pass that runs alone frees the mutexes of dead owners and no others; a blocking lock that looks for dead owners gets the mutex of a dead one.", "quantifier": "every reachable state, every timing of deaths including inside the spin loops", "why_tests_cant": "needs deaths at every instruction of the list lock followed by more than a thousand spins", "anchors": ["lib/flckbaselist.tcc:fl_lock_lockid,fl_unlock_lockid", "lib/flckshm.cc:RawLock,CheckMutexDeadLock"]}
{"id": "C121", "title": "The dump shows every lock in use", "statement": "A dump of the shared memory shows every file, every named mutex and every named condition variable in use, in the order of its list, with all ranges, readers, writers and waiters inside; if asked for, it shows every unused entry.", "quantifier": "every content of the shared memory, lists of any length, any mapping address", "why_tests_cant": "needs memories with every combination of list lengths", "anchors": ["lib/flckshmdump.cc:Dump", "lib/flcklistfilelock.cc:dump", "lib/flcklistofflock.cc:dump", "lib/flcklistncond.cc:dump"]}
{"id": "C122", "title": "The dump tells the state of the locks it shows", "statement": "If two memories give the same dump, every lock shown is in the same state in both: a mutex is owned in both or in neither, a range has the same lock word, offset and length, a reader or writer the same thread, descriptor and status; every value printed is the one in memory.", "quantifier": "all pairs of memory contents", "why_tests_cant": "needs comparison of all pairs of memory contents with equal output", "anchors": ["lib/flckshmdump.cc:Dump", "lib/flcklistnmtx.cc:dump", "lib/flcklistofflock.cc:dump", "lib/flcklistlocker.cc:dump"]}
{"id": "C123", "title": "A dump taken while other threads run shows only entries of the list", "statement": "A dump that walks over a list while other threads take and release entries shows only entries that were in that list at some time during the walk.", "quantifier": "every interleaving of the reads of the dump with the single writes of other threads, lists of any length", "why_tests_cant": "needs a release between two particular reads of the dump", "anchors": ["lib/flckshmdump.cc:Dump", "lib/flckbaselist.tcc:insert_list,retrieve_list,cutoff_list"]}
{"id": "C124", "title": "Programs cannot tell the spin loops and compare-and-swaps of read/write locks from atomic steps", "statement": "When the list lock is taken and released by its compare-and-swap loops with take-over from dead threads, and read attempts and unlocks load the lock word and compare-and-swap it separately, every history of calls, returns and deaths is one that also occurs when each of these is a single step: at most one living thread is inside the guarded sections, held locks do not conflict, locks of present holders are not taken away, and histories are those of an atomic lock table.", "quantifier": "every interleaving of single compare-and-swaps, loads and liveness probes, every timing of deaths, any number of threads, any ranges of a family", "why_tests_cant": "needs schedules that switch threads between a load and its compare-and-swap and deaths inside the list lock", "anchors": ["lib/flckbaselist.tcc:fl_lock_lockid,fl_unlock_lockid,fl_rdlock_rwlock,fl_tryrdlock_rwlock,fl_timedrdlock_rwlock,fl_wrlock_rwlock,fl_unlock_rwlock", "lib/flckshm.cc:RawLock,IsLocked,CheckFileLockDeadLock", "lib/flcklistofflock.cc:rawlock,dolock"]}
{"id": "C125", "title": "A read/write lock call that runs alone returns, also past a dead holder of the list lock", "statement": "When no call of a living thread is running, whoever died where, also inside the list lock: every try lock, timed lock whose time has expired, unlock, islocked call and recovery pass that runs alone returns within a bounded number of steps; a lock call without conflicting lock is granted; the holder's unlock succeeds and gives up the lock; a pass takes away every lock whose holder is gone, and a try lock after it fails only for want of entries.", "quantifier": "every reachable state, every timing of deaths including inside the spin loops, lists of any length", "why_tests_cant": "needs deaths at every instruction of the list lock followed by more than a thousand spins", "anchors": ["lib/flckbaselist.tcc:fl_lock_lockid,fl_unlock_lockid,fl_unlock_rwlock", "lib/flckshm.cc:RawLock,IsLocked,CheckFileLockDeadLock", "lib/flcklistofflock.cc:rawlock,dolock,check_dead_lock"]}
{"id": "C126", "title": "A timed call returns when its time is over", "statement": "Once the time given to a timed lock call or timed condition wait is over (plus the second by which the comparison of times may be late), the call returns, whatever the value of the timeout and whoever holds the lock.", "quantifier": "every value of the timeout, also negative ones, every sequence of failed attempts and clock readings", "why_tests_cant": "needs all integer timeouts and locks held for any length of time", "anchors": ["lib/fullock.cc:fullock_mutex_timedlock,fullock_rwlock_timedrdlock,fullock_rwlock_timedwrlock,fullock_cond_timedwait", "lib/flcklistnmtx.cc:rawlock", "lib/flcklistofflock.cc:dolock", "lib/flcklistwaiter.cc:lock"]}
{"id": "C127", "title": "A timed lock call that fails because of its time says ETIMEDOUT", "statement": "A timed lock call answers 0 only if it got the lock, and ETIMEDOUT if it gave up for want of time; there is no third answer while the clock works.", "quantifier": "every value of the timeout, every sequence of attempts and clock readings", "why_tests_cant": "needs every timeout, also zero and negative ones, with every outcome", "anchors": ["lib/fullock.cc:fullock_mutex_timedlock,fullock_rwlock_timedrdlock,fullock_rwlock_timedwrlock", "lib/flcklistnmtx.cc:rawlock", "lib/flcklistofflock.cc:dolock"]}
{"id": "C128", "title": "A null pointer for a name is refused", "statement": "Every call with a null pointer for the name of a mutex or of a condition variable answers EINVAL and touches nothing.", "quantifier": "every call, every state of the mapping, every configuration", "why_tests_cant": "needs each name argument of each call, in every mode", "anchors": ["lib/fullock.cc", "lib/flckshm.cc:RawLock", "lib/flcklistnmtx.h:find,initialize"]}
{"id": "C129", "title": "A waiting lock call of a named mutex is served", "statement": "If every thread that got the mutex unlocks it, nobody dies and every thread inside a call keeps running, then every blocking lock call gets the mutex.", "quantifier": "every infinite fair execution, any number of threads", "why_tests_cant": "is a statement about infinite executions", "anchors": ["lib/flckbaselist.tcc:fl_lock_mutex,fl_unlock_mutex", "lib/flcklistnmtx.cc:rawlock"]}
{"id": "C130", "title": "Who keeps asking for a read/write lock is served", "statement": "If every holder unlocks and every call keeps running, then a writer or reader that asks again and again gets the lock; in particular readers that overlap do not keep a writer out for ever.", "quantifier": "every infinite fair execution, any number of readers and writers", "why_tests_cant": "is a statement about infinite executions", "anchors": ["lib/flckbaselist.tcc:fl_rdlock_rwlock,fl_tryrdlock_rwlock,fl_wrlock_rwlock,fl_trywrlock_rwlock,fl_unlock_rwlock", "lib/flcklistofflock.cc:dolock"]}
{"id": "C131", "title": "Programs cannot tell the spin lock around the conditions from an atomic step", "statement": "Waiting, signalling, broadcasting and recovery protect the list of conditions with a spin lock that can be taken over from a dead process. Whatever the interleaving of its turns, the calls, their results and their order are those of executions in which the lock is taken and released in one step; two living threads are never inside the list; a signal wakes exactly the longest waiter, a wait that answers 0 has the mutex and was signalled.", "quantifier": "all executions, any number of threads, deaths at any step, unless a thread spins 2^31 turns", "why_tests_cant": "needs all interleavings of single memory accesses with deaths", "anchors": ["lib/flckbaselist.tcc:fl_lock_lockid,fl_unlock_lockid", "lib/flckshm.cc:Wait,Signal,Broadcast,CheckProcessDead", "lib/flcklistncond.cc:wait,signal,broadcast,check_dead_lock"]}
{"id": "C132", "title": "Condition calls that run alone return, also past a dead holder of the list lock", "statement": "If no living thread is inside the list of conditions, then a signal, broadcast, mutex unlock or recovery pass returns within a bounded number of its own turns, and so does a lock or wait call whose time is up, also when a process died while it held the spin lock. A signal then wakes the longest waiter and changes nothing else; that waiter, running alone with the mutex free, returns 0 with the mutex.", "quantifier": "all reachable states, any number of waiters, any dead threads", "why_tests_cant": "states left behind by deaths at every step cannot be enumerated", "anchors": ["lib/flckbaselist.tcc:fl_lock_lockid,fl_unlock_lockid", "lib/flckshm.cc:Wait,Signal,Broadcast,CheckProcessDead", "lib/flcklistncond.cc:wait,signal,broadcast,check_dead_lock", "lib/flcklistwaiter.cc:wait,signal"]}
{"id": "C133", "title": "The memory of the worker is never used after it was given back", "statement": "No block of memory that a worker thread gets, and no copy of the path in it, is read, written or given back after it was given back, neither in a process nor in its forked children, however often the library is initialised and terminated.", "quantifier": "all executions, any number of worker objects one after the other, forks at any moment, every failing system call", "why_tests_cant": "a stale pointer needs a fork and two threads at exact places, and usually goes unnoticed", "anchors": ["lib/flckthread.cc:CleanupHandler,WorkerProc,InitializeThread,ReInitializeThread", "lib/flckshm.cc:ReinitializeAtForkedChild", "lib/flckutil.h:FLCK_Free,FLCK_Delete"]}
{"id": "C134", "title": "An ended worker leaves nothing behind", "statement": "When no worker is at work and no call is under way, the process has none of the memory and none of the descriptors that its workers took.", "quantifier": "all executions, any number of worker objects one after the other, forks at any moment, every failing system call", "why_tests_cant": "what leaks depends on the place of the worker when it is cancelled or the process forks", "anchors": ["lib/flckthread.cc:CleanupHandler,WorkerProc,InitializeThread,ReInitializeThread,ExitThread"]}
{"id": "C135", "title": "A forked child keeps nothing of its parent's worker", "statement": "When the fork handler is through, the child has given back the memory of the parent's worker and closed the descriptors of that worker.", "quantifier": "all executions up to the fork, all moments of the fork at which the worker is up", "why_tests_cant": "needs the state of the child at every place of the parent's worker", "anchors": ["lib/flckthread.cc:ReInitializeThread,CleanupHandler", "lib/flckshm.cc:ReinitializeAtForkedChild"]}
{"id": "C136", "title": "The worker uses open descriptors only", "statement": "Every descriptor that a worker waits on, reads from, adds a watch to or closes is one that the process has open, and no descriptor is closed twice.", "quantifier": "all executions, any number of worker objects one after the other, forks at any moment, every failing system call", "why_tests_cant": "a closed number may have been given to another file meanwhile", "anchors": ["lib/flckthread.cc:CleanupHandler,WorkerProc,EventFd,InotifyFd,WatchFd"]}
{"id": "C137", "title": "Recursive rwlock objects: threads do not disturb each other", "statement": "When every object is used by one thread only, and no call asks for the other kind of lock on an object that is locked, then each thread sees its objects, its results, its requests to the shared lock layer and its part of the list of lock objects as in some execution in which it is alone. In particular, with ranges that are equal or disjoint and a layer that releases what is held, a locked object of a thread is locked in the layer, for writing if it is a writer, and a thread without locked objects holds nothing there.", "quantifier": "all interleavings of any number of threads and calls, all answers of the shared lock layer, forks at any moment", "why_tests_cant": "needs every interleaving of calls on the shared list", "anchors": ["lib/rwlockrcsv.cc:StackLock,StackUnlock,RawLock,RawUnlock,RawReadLock,RawWriteLock,Lock,ReadLock,WriteLock,Unlock"]}
{"id": "C138", "title": "Recursive rwlock objects: one thread at a time at the list", "statement": "Two threads are never at an access of the process-wide list of lock objects at the same time.", "quantifier": "all interleavings of any number of threads and calls, each on its own objects", "why_tests_cant": "an overlap lasts for nanoseconds and corrupts the vector only sometimes", "anchors": ["lib/rwlockrcsv.cc:StackLock,StackUnlock,RawUnlock,RawReadLock,RawWriteLock"]}
{"id": "C139", "title": "Recursive rwlock objects: who waits for the list's mutex gets its turn", "statement": "Whenever a thread spins on the mutex of the list of lock objects, some thread has it and releases it after a finite number of its own steps.", "quantifier": "all interleavings of any number of threads and calls, each on its own objects, all answers of the shared lock layer", "why_tests_cant": "a lost mutex shows as a process that hangs some time later in an unrelated thread", "anchors": ["lib/rwlockrcsv.cc:StackLock,StackUnlock,RawWriteLock", "lib/flckbaselist.tcc:flck_trylock_noshared_mutex,flck_unlock_noshared_mutex"]}
{"id": "C140", "title": "Recursive rwlock objects: a forked child can lock", "statement": "After a fork the child's calls on its recursive lock objects return, when nobody else disturbs them and requests for writing are granted.", "quantifier": "all states of the parent at the fork, every thread that forks, every call", "why_tests_cant": "the moment of the fork relative to the other threads decides", "anchors": ["lib/rwlockrcsv.cc:StackLock,StackUnlock", "lib/flckbaselist.tcc:flck_trylock_noshared_mutex", "lib/flckshm.cc:ReinitializeAtForkedChild"]}
{"id": "C141", "title": "Read/write locks: a blocking call takes over from holders that are gone", "statement": "In high robust mode a blocking lock call returns 0 and has the lock once its loop limit has been reached often enough, when every conflicting lock belongs to a holder that is gone and there are free entries, without help of the worker thread.", "quantifier": "all reachable states, all sets of holders, all numbers of entries, every alternation of waiting and checking, also with the spinning primitives", "why_tests_cant": "needs a holder that dies with the lock and a worker that does not run meanwhile", "anchors": ["lib/flcklistofflock.cc:dolock,check_dead_lock", "lib/flckshm.h:IsHighRobust"]}
{"id": "C142", "title": "Read/write locks: a timed call takes over from holders that are gone", "statement": "A timed lock call returns 0, when it runs long enough alone and every conflicting lock belongs to a holder that is gone, as the blocking call does.", "quantifier": "all reachable states, all sets of holders, all waiting times", "why_tests_cant": "needs a holder that dies with the lock and a worker that does not run meanwhile", "anchors": ["lib/flcklistofflock.cc:dolock"]}
{"id": "C143", "title": "Shared file: a process unmaps exactly what it mapped", "statement": "Whenever a process gives up its mapping of the shared file, the length it unmaps is the length it mapped: no other memory of the process is unmapped with it and nothing of the file stays mapped.", "quantifier": "all interleavings of any number of processes and threads with different configured sizes, forks, deaths, failing system calls", "why_tests_cant": "the length is read from the header in the shared file at the time of the detach; needs processes with different configurations", "anchors": ["lib/flckshminit.cc:Attach,Detach,InitializeShmFile"]}
{"id": "C144", "title": "Shared file: the mapping of an attached process is the whole file", "statement": "While a process is attached and no call of it is running, its mapping has exactly the size of the file, whatever sizes it configured itself, and the header and all areas that the file was made with lie inside: no access to them is beyond the end of the file.", "quantifier": "all interleavings of any number of processes and threads with different configured sizes, forks, deaths, failing system calls", "why_tests_cant": "a mapping longer than the file shows as SIGBUS at some later access", "anchors": ["lib/flckshminit.cc:Attach,InitializeShmFile"]}
{"id": "C145", "title": "A named mutex is held by one running thread, also with forked children", "statement": "At every moment at most one running thread has a given named mutex (its lock call returned 0 and it has not called unlock), whichever threads fork, and no thread that runs loses the mutex to the recovery of dead owners.", "quantifier": "all interleavings of any number of processes and threads, with forks between calls, deaths and recovery passes", "why_tests_cant": "the loss needs a fork after the first call, a lock in the child and a recovery pass at that moment", "anchors": ["lib/flckutil.h:get_flckpid,get_threadid", "lib/flckutil.cc:FindThreadProcess", "lib/flcklistnmtx.cc:check_dead_lock", "lib/flckbaselist.tcc:fl_force_unlock_mutex"]}
{"id": "C146", "title": "One running thread at a time inside the list of named mutexes, also with forked children", "statement": "At every moment at most one running thread is between taking and releasing the lock word of the list of named mutexes, whichever threads fork.", "quantifier": "all interleavings of any number of processes and threads, with forks between calls, deaths and recovery passes", "why_tests_cant": "two threads inside the list at once corrupt it only if they change the same place", "anchors": ["lib/flckutil.h:get_flckpid", "lib/flckbaselist.tcc:fl_lock_lockid", "lib/flckutil.cc:FindThreadProcess"]}
{"id": "C147", "title": "At exit the library's static objects are used only while they live, and static recursive locks are released", "statement": "While a process exits, no destructor of a static object of the program (a recursive lock object, or an object that calls lock functions) makes the library use one of its own static objects after that object was destroyed; and when all destructors have run, no lock that a static recursive lock object held is left in the shared memory.", "quantifier": "all orders of construction, all mixes of static objects, all configurations of automatic initialisation and retry, all outcomes of initialising", "why_tests_cant": "the order of destruction follows from the order of first uses; a use after destruction mostly goes unnoticed at exit", "anchors": ["lib/flckshm.cc:FlShmHelper", "lib/flckutil.cc:FlTidCache", "lib/rwlockrcsv.cc:FLRwlRcsvHelper,RawUnlock", "lib/flckdbg.cc:FlckDbgCntrl"]}
{"id": "C148", "title": "The worker thread uses the library's static objects only while they live", "statement": "While a process exits, the worker thread that looks for dead processes never asks for its thread number after the library's cache of thread numbers was destroyed.", "quantifier": "all orders of construction, all moments at which the worker makes a pass", "why_tests_cant": "needs a pass of the worker (once in several seconds) in the moment between two destructors", "anchors": ["lib/flckshm.cc:FlShmHelper,CheckProcessDead", "lib/flckutil.cc:FlTidCache,get_threadid"]}
{"id": "C149", "title": "Re-initialisation opens the file it names", "statement": "When fullock_reinitialize returns true, the shared file that is open is the one in the directory given and with the name given (defaults and environment where they are not given). When it returns false, no shared file is open, or the call has changed nothing at all.", "quantifier": "all sequences of lock calls, settings and re-initialisations before it, all arguments, environments, file systems, outcomes of opening", "why_tests_cant": "a test that makes a lock call first never sees the difference", "anchors": ["lib/flckshm.cc:ReInitializeObject,FlShmHelper,InitializeObject", "lib/flckshminit.cc:InitializeShm"]}
{"id": "C150", "title": "A setting made by the program stays in force", "statement": "After a setter of the library (robust mode, behaviour without a shared file, release of unused units, check count) has accepted a value, that value is in force until the next setter of the same kind or the next re-initialisation, whatever lock calls are made.", "quantifier": "all sequences of lock calls and settings, all environments and outcomes of opening", "why_tests_cant": "needs a setter before the first lock call together with an environment variable for the same setting", "anchors": ["lib/fullock.cc:fullock_set_noretry_deny_nomap,fullock_set_robust_check_count", "lib/flckshm.cc:SetRobustMode,SetNomapMode,SetFreeUnitMode,SetRobustLoopCnt,LoadEnv,InitializeObject"]}
{"id": "C151", "title": "Data under a named mutex is seen as last written, also by processors with store buffers", "statement": "A thread that has a named mutex reads, at every place the mutex protects, the value that was last stored there by any thread while it had the mutex, although every processor may delay its own stores.", "quantifier": "all interleavings, any number of processes and threads, all moments at which delayed stores reach the memory, deaths at any moment, recovery passes", "why_tests_cant": "a delayed store becomes visible within nanoseconds; a missing barrier shows once in very many runs and only on some processors", "anchors": ["lib/flckbaselist.tcc:fl_lock_mutex,fl_unlock_mutex,fl_force_unlock_mutex", "lib/fullock.cc:fullock_mutex_lock,fullock_mutex_unlock"]}
{"id": "C152", "title": "Data under a read/write lock is seen as last written, also by processors with store buffers", "statement": "A thread that has a read or write lock on a range of a file reads, at every byte of the range, the value that was last stored there by any thread while it had a write lock covering it, although every processor may delay its own stores.", "quantifier": "all interleavings, all files and ranges, any number of processes and threads, all moments at which delayed stores reach the memory", "why_tests_cant": "a delayed store becomes visible within nanoseconds; a missing barrier shows once in very many runs and only on some processors", "anchors": ["lib/flckbaselist.tcc:fl_rdlock_rwlock,fl_wrlock_rwlock,fl_unlock_rwlock", "lib/flcklistofflock.cc:lock,unlock", "lib/flckshm.cc:Lock,Unlock"]}
{"id": "C153", "title": "The library's lists are seen as last changed, also by processors with store buffers", "statement": "A thread inside the internal lock of a list reads every field as it was last stored by any thread inside that lock, also when the lock was taken over from a thread that has ended.", "quantifier": "all interleavings, any number of threads, deaths at any moment, all moments at which delayed stores reach the memory", "why_tests_cant": "a delayed store becomes visible within nanoseconds, and the takeover needs a death inside the lock", "anchors": ["lib/flckbaselist.tcc:fl_lock_lockid,fl_unlock_lockid"]}
{"id": "C154", "title": "A thread that has a read/write lock can lock again without waiting for itself", "statement": "If a thread has a read/write lock on a range and nobody else has any lock, a further lock call of the same thread on the same descriptor and range, for reading or for writing, returns 0 (README: not dead lock by same thread locking).", "quantifier": "all reachable states, both kinds of the first and of the second lock, all schedules of the call", "why_tests_cant": "a test that locks again for reading passes; with a write lock the test hangs and is not written", "anchors": ["lib/flckshm.cc:Lock", "lib/flcklistofflock.cc:lock", "lib/flckbaselist.tcc:fl_wrlock_rwlock", "docs/fullock.3", "README.md"]}
{"id": "C155", "title": "The thread that looks for ended processes runs exactly when the robust mode asks for it", "statement": "While the shared file is open, the worker thread that looks for ended processes runs in the process if the robust mode in force is LOW or HIGH, and does not run if it is NO.", "quantifier": "all programs: sequences of settings, lock calls and re-initialisations, all environments, opening the file succeeding or not", "why_tests_cant": "the missing thread shows only when a process dies while holding a lock and the mode was set after the first use", "anchors": ["lib/flckshminit.cc:InitializeShm,Destroy", "lib/flckshm.cc:SetRobustMode", "lib/fullock.cc:fullock_set_no_robust,fullock_set_low_robust,fullock_set_high_robust", "lib/flckshm.h:IsRobust"]}
{"id": "C156", "title": "Read/write locks exclude each other also between forked processes", "statement": "When processes fork, two locks that are held at the same time on ranges of one file that share a byte are both read locks, for ranges that are pairwise equal or disjoint.", "quantifier": "all interleavings of threads of any number of processes, forks by any thread between its calls, ends of threads, all files and ranges", "why_tests_cant": "the child must be interrupted inside the internal lock of the library for a few instructions while another process uses the same range", "anchors": ["lib/flckutil.h:get_flckpid", "lib/flckutil.cc:get_threadid,FindThreadProcess", "lib/flckbaselist.tcc:fl_lock_lockid", "lib/flckshm.cc:Lock,Unlock"]}
{"id": "C157", "title": "A running process keeps its read/write lock until it unlocks it, also when it was forked", "statement": "When processes fork, a thread that runs and has a read/write lock through a descriptor that still refers to the file keeps it at every step of every other thread, until it calls unlock itself.", "quantifier": "all interleavings of threads of any number of processes, forks by any thread between its calls, ends of threads, recovery passes of privileged and unprivileged processes, waiting calls that give up", "why_tests_cant": "the lock is lost silently and only when another process looks for ended processes", "anchors": ["lib/flckutil.h:get_flckpid", "lib/flckutil.cc:get_threadid,FindThreadProcess,GetFileDevNode", "lib/flcklistlocker.cc:check_dead_lock", "lib/flcklistofflock.cc:check_dead_lock", "lib/flckshm.cc:CheckFileLockDeadLock"]}
{"id": "C158", "title": "A thread is known by one number in all its calls", "statement": "All lock, unlock and query calls of a thread are made under one and the same thread number, whatever the process forks, whether or not the system can keep the number for the thread, and also while the process exits.", "quantifier": "all interleavings of calls, thread creations, forks and exits of any number of processes, all failures to get a key for thread-specific data or to store a value, all uses of keys by other libraries", "why_tests_cant": "the number changes only when a call is made after static objects have been destroyed, or after the system has given the deleted key to somebody else", "anchors": ["lib/flckutil.cc:FlTidCache,get_threadid"]}
{"id": "C159", "title": "Other libraries find in their thread-specific data what they stored", "statement": "What another library of the process reads under a key that it has created is what it last stored there in the same thread (nothing, if it has stored nothing), whatever calls of this library are made in between.", "quantifier": "all interleavings of calls, thread creations, forks and exits of any number of processes, all failures to get a key for thread-specific data or to store a value, all uses of keys by other libraries", "why_tests_cant": "needs another library that creates a key while the process exits, and a lock call after that", "anchors": ["lib/flckutil.cc:FlTidCache,get_threadid"]}
{"id": "C160", "title": "A mutex is had by one thread at most, also when processes re-initialise the library", "statement": "At any time at most one thread has a mutex of a given name in a given file, where a thread has it from a successful lock call to its next successful unlock call (or the end of its process), while processes call fullock_reinitialize with the same or with other files at any time.", "quantifier": "all files with any content, all names, any number of processes and threads, all sequences of lock, unlock and re-initialisation calls (failing ones included), deaths and recovery passes", "why_tests_cant": "the lock is lost only when the process that re-initialises is the only one that uses the file at that moment", "anchors": ["lib/fullock.cc:fullock_reinitialize,fullock_reinitialize_ex", "lib/flckshm.cc:ReInitializeObject", "lib/flckshminit.cc:Destroy,Detach,InitializeShm,InitializeShmFile"]}
{"id": "C161", "title": "A thread can unlock every mutex it has, also after re-initialisation", "statement": "Whatever fullock_reinitialize calls the process has made since it locked a mutex, an unlock call of the thread that has it returns 0, and then the next lock call of any other process that uses the file of the mutex gets it.", "quantifier": "all files with any content, all names, any number of processes and threads, all sequences of lock, unlock and re-initialisation calls (failing ones included), deaths and recovery passes", "why_tests_cant": "the mutex stays locked in a file that its owner does not use any more; tests re-initialise with nothing locked", "anchors": ["lib/fullock.cc:fullock_reinitialize,fullock_reinitialize_ex", "lib/flckshm.cc:ReInitializeObject,RawLock,CheckMutexDeadLock", "lib/flckshminit.cc:Destroy,Detach,InitializeShm"]}
{"id": "C162", "title": "What ended processes and threads have locked is released by the worker thread of another process", "statement": "When a process or a thread has ended while it had locks, the worker thread of a process that has the library initialised and running releases them after a while, without any further event and without any lock call of anybody.", "quantifier": "all sets of locks, all orders in which processes and threads take and give locks and end, all delays of the worker and between the close of the descriptors of an ending process and its disappearance, all merging of close events, failures to read events", "why_tests_cant": "depends on whether the parent has already waited for the ended process when the worker looks, a race that tests with waiting parents do not show", "anchors": ["lib/flckthread.cc:WorkerProc,CheckEvent", "lib/flckshm.cc:CheckProcessDead", "lib/flckutil.cc:FindThreadProcess,GetFileDevNode"]}
{"id": "C163", "title": "What a program has locked is released when the process executes another program", "statement": "When a process calls execve, the locks that it had are released by the next recovery pass at the latest, so that other processes, and the new program, can get them.", "quantifier": "all sets of named mutexes, ranges and locks without a file, any number of processes and threads, any thread calling execve, descriptors that are inherited or closed by execve, any number of programs in a row, all interleavings with locks, unlocks, ends of threads and processes and recovery passes", "why_tests_cant": "the numbers by which owners are known stay valid over execve, so that nothing looks wrong until somebody else wants the lock", "anchors": ["lib/flckutil.h:get_flckpid", "lib/flckutil.cc:FindThreadProcess,GetFileDevNode", "lib/flcklistnmtx.cc:check_dead_lock", "lib/flcklistlocker.cc:check_dead_lock"]}
{"id": "C164", "title": "What an ended process had locked is not taken for a lock of a later process with its number", "statement": "A recovery pass releases the locks of a process that has ended also when the system has given its number to a new process in the meantime.", "quantifier": "all sets of named mutexes, ranges and locks without a file, any number of processes and threads, all times at which processes end and numbers of processes, threads and descriptors are given out again, any descriptors inherited by the new process, all interleavings with locks, unlocks and recovery passes", "why_tests_cant": "process numbers come round after tens of thousands of processes; a test does not wait for that", "anchors": ["lib/flckutil.h:get_flckpid", "lib/flckutil.cc:FindThreadProcess,GetFileDevNode", "lib/flcklistnmtx.cc:check_dead_lock", "lib/flcklistlocker.cc:check_dead_lock"]}
{"id": "C165", "title": "Calls with the same arguments mean the same mutex, condition or range", "statement": "Whichever functions they are, two calls are about the same mutex or condition exactly if the names given agree in their first 63 bytes, and about the same range exactly if descriptor, offset and length are equal; no call is about anything that it does not name. A wait without a limit returns only when signalled and with the mutex, one with a limit other than -1 returns when its time, and a second for the coarse comparison, is over in each of its two parts (waiting for the signal, and for the mutex), and only broadcast is for all waiters.", "quantifier": "all pairs of functions of the API, called in a process that has the shared file, all names other than null, all descriptors, ranges and timeouts, all readings of the clock", "why_tests_cant": "quantifies over all pairs of functions and all argument values", "anchors": ["lib/fullock.cc:136-250", "lib/flckshm.cc:FlShm::RawLock:661-730,731-837,873-970,974-1047"]}
{"id": "C166", "title": "What an ended thread had locked is released while its process goes on", "statement": "A recovery pass releases what a thread had locked that has ended since, the main thread included, although the process goes on; threads that go on can then get it.", "quantifier": "all sets of named mutexes, ranges and locks without a file, any number of processes and threads, all orders in which threads and processes start, lock, unlock and end, all files opened and closed, any number of recovery passes", "why_tests_cant": "a main thread that ends by pthread_exit before its process is still listed in /proc; tests end threads other than the main one, or the process", "anchors": ["lib/flckutil.cc:FindThreadProcess,GetFileDevNode", "lib/flcklistnmtx.cc:check_dead_lock", "lib/flcklistlocker.cc:check_dead_lock"]}
{"id": "C167", "title": "A waiting call is woken at one moment", "statement": "Signals and waits on the word of a waiting call behave as if each acted at one moment between its call and its return: a signal changes the word then, a wait that returns success finds it changed then, and one that times out has found it unchanged at some moment of the call; a wait without a limit returns nothing but success. A signal that runs alone returns after a bounded number of steps whatever unfinished signals of other threads there are, and tries again at most once for every change made by another thread.", "quantifier": "all interleavings of the single memory accesses and clock readings of any number of threads, threads that stop at any point, all values of the word, all limits and all clock readings including failing ones", "why_tests_cant": "the loops differ from single steps only when another thread writes between a load and the compare-and-swap that follows it", "anchors": ["lib/flckbaselist.tcc:fl_wait_cond,fl_timedwait_cond,fl_force_set_cond", "lib/flcklistwaiter.cc:FlListWaiter::rawlock"]}
{"id": "C168", "title": "No call leaves an internal lock taken, and internal locks do not deadlock", "statement": "On every path of every call and of a recovery pass, with success or failure, a thread takes the lock of an internal list only while it has none, releases only one that it has, has none while it waits for a lock of the user or for a signal, and has none when the call has returned. A thread that asks for such a lock gets it after some steps of the one thread that has it, if any; no third thread is needed, and a thread that has ended holds up nobody.", "quantifier": "all orders and numbers of calls by any number of threads, all branches of the control flow of the calls including failures at every allocation and lookup, all interleavings, threads that end at any point", "why_tests_cant": "most of the releases are on paths taken only when the shared file is full or a lookup fails, and an internal lock left behind shows only in the next call of another thread", "anchors": ["lib/flckshm.cc:RawLock,IsLocked,CheckProcessDead,CheckFileLockDeadLock,CheckMutexDeadLock,CheckCondDeadLock", "lib/flcklistfilelock.cc:rawlock", "lib/flcklistofflock.cc:rawlock,dolock", "lib/flcklistncond.cc:rawlock", "lib/flcklistwaiter.cc:rawlock", "lib/flcklistnmtx.cc:rawlock", "lib/flckbaselist.tcc:fl_lock_lockid,fl_unlock_lockid"]}
