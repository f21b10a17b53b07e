s='''# Formal model of CARV-ICS-FORTH/arax in Rocq (Coq 8.16.1)

## Method

* One group of files per component under `rocq/theories/`. Small components are one file (model, specification, proofs,
  property theorems in that order); large ones are split: `XModel.v` (Gallina transcription of the C code, every
  definition citing the lines it models), `XInv.v`/`XProof.v` (lemmas), `XProps.v` (property theorems, each with an
  `Example` of a concrete state or history that meets its hypotheses).
* C failures are explicit outcomes (`Base.v`): `Abort` (an `arax_assert`/`abort` fired), `UB` (out-of-bounds,
  use after free, null dereference), `Block` (the call would spin or sleep for ever in a sequential context).
* Fixed-width arithmetic (`uint16_t` queue indices, `uint64_t` chunks, `size_t` counters and sizes) is modelled with
  explicit `mod 2^16` / `mod 2^64`.
* Concurrency is the interleaving of individual shared-memory accesses (sequential consistency) of an unbounded number
  of threads, each with a program counter. Properties over schedules quantify over every finite execution of such a
  transition system; invariants are inductive, never bounded.
* Specifications are kept apart from the model: bounded FIFO lists, finite maps, sets of live ranges, observers that
  only look at the calls and returns of client threads (`ThrottleObs.v`, `WorkObs.v`, the `*_is_observed` theorems, which
  tie the ghost histories used by the other theorems to program-counter changes).
* Where the code violates the English property, the theorem is named `..._refuted` (a concrete execution inside the
  faithful model) and the strongest true statement is proved beside it, named `..._partial`. The manifest then says
  `partial`.
* `tools/mutate.py` seeds bugs in a scratch copy and records in `seeded/LOG.jsonl` which theorems stop proving.

## Plan per property

| id | files | what is modelled, how it is proved |
|----|-------|------------------------------------|
| C01 C02 C04 | `BitmapModel` `BitmapProof` `BitmapHist` `BitmapProps` | chunks as 64-bit words, all search branches, `free_p` cursor; invariant over histories with a ghost set of live ranges; per-bit specs by `N.testbit`; refuted for sizes that are not a multiple of 64 and for freeing unallocated bits |
| C03 | same | completeness of the search; refuted for small straddling requests, proved for >64 pages and runs inside one group |
| C05 | `AllocModel` `AllocProps` | pointer rounding of `arax_mmap`/`arax_ummap` and segment layout, on top of the bitmap histories |
| C06 C07 | `QueueModel` `QueueProps` | ring buffer with 16-bit indices refines a bounded FIFO list for every power of two up to 32768; refuted at 65536 |
| C08 | `QueueConc` | threads, lock, compare-and-swap, one access per step; inductive invariant with unbounded ghost counters; condition: no pop overtaken by 65536 others (refuted without it) |
| C09 | `Spinlock` | inductive invariant over interleavings |
| C10 | `ListModel` `ListProps` | heap of nodes with next/prev/owner pointers refines sequences |
| C11 | `Kv` | refinement to a finite map |
| C12 C13 C14 | `Throttle` `ThrottleObs` | threads over both condition back-ends; inductive invariants, an observer of the calls; C13 refuted for the spin back-end |
| C15 | `Async` | completions of both back-ends against an atomic counter |
| C16 C17 | `TaskWait` | task states and waits; refutations |
| C18-C23 C29 C31-C34 | `CoreModel` `CoreInv` `CoreStep` `CoreDec` `CoreOps` `CoreIssue` `CorePlace` `CoreMain` `CoreSyn` `CoreWorld` `CoreProps` `CoreProps2` | one heap of objects (physical and virtual accelerators, procedures, buffers, tasks) with the API calls as atomic steps and ghost ownership; one global invariant by induction over legal API histories |
| C24 C44 (and concurrent C21, C22) | `WorkModel` `WorkInv` `WorkProof` `WorkProps` `WorkObs` | submitters, workers, assignment and removal interleaved on both async back-ends; permit accounting |
| C25 C26 C28 | `DataLayout` | placement arithmetic mod 2^64, byte memory; C26 refuted (the back-pointer guess reads user bytes) |
| C27 C46 | `DataPath` | clients, workers and CPU handlers: buffer contents through the queues |
| C30 | `AccelTypes` | table of names, `strcasecmp` |
| C31 (kernels) | `ProcFn` | functor table of a procedure |
| C35 | `ProcMap` | table of 8-byte cells with the byte-count `memmove` |
| C36 C37 C43 | `PipeInit` | attach, initialise, detach and tear-down of the shared segment by any number of processes |
| C38 | `CtrlReady` | controller start-up notification, both back-ends |
| C39 C47 C48 | `Config` `ConfigPath` `ConfigConc` | configuration file parser on strings, `~` expansion in a 4096-byte array, unlocked read-truncate-write |
| C40 C41 | `Sched` | accelerator-side selection loops |
| C42 C45 | `Balancer` | orphan hand-over and the schedulers' placement of new virtual accelerators |
| C49 | `ObjConc` | one object, any number of threads taking, listing, looking up and releasing references, one memory access per step |
| C50 | `DataCopy` | arax_data_memcpy, get and set over buffer contents and the pending writes of each virtual accelerator |
| C51 | `TaskLife` | one task: its client, its worker, its handler and the other users of its procedure, one access per step |
| C52 | `ProcThreads` | the threads of one process calling arax_init, arax_exit and arax_ptr_valid, one access per step; invariant on the thread count |
| C53 | `Mapping` | any number of processes attaching to one file, with the kernel's and the configuration's answers in the schedule; invariant per process |
| C54 | `Shutdown` | main, its workers, clients and the balancer, one access per step; liveness by a measure that every fair round decreases |
| C55 | `LibLoad` | folders as trees, paths as strings, symbol names split as the regular expression does; induction on the tree for start-up, histories of events for the run-time loader |
| C56 | `ProcReg` | threads registering a name and setting kernels, one access per step; invariants over all interleavings, traces for the refutations |
| C57 | `Ivshmem` | one completion, any threads on any machines with doorbells; invariants over all interleavings |
| C58 | `CtrlConfig` | parsed JSON to accelerators, function by function; induction on the groups and on the text of core lists |
| C59 | `DlModel` … `DlHist`, `DlProps` | boundary tags word by word in memory, segments, bins as lists; invariant: every segment is tiled by chunks whose tags agree, bins and dv are exactly the free chunks; preserved by every path of malloc and free; histories with stores of the program |
| C60 | `DlProps`, `DlEx` | the same invariant with pages; refutations are executed histories |
| C61 | `DlTree` | tries of chunks with rings; invariant by intervals of sizes; the search against a specification on the list of chunks |
| C62 | `Crash` | the concurrent models of the lock, the queue, the objects, the segment and the wait, with processes dying between any two steps; invariants of those models; the refuted parts quantify over every continuation |
| C63 | `DlInfo` | the two walks over the heap of `DlModel`; they follow the tiling that is the invariant of C59; sums over tiles are compared with sums over blocks by address |
| C64 | `PageMap`, `DlPages`, `DlPagesEx` | the calls the heap of `DlModel` makes are logged (ghost) and replayed on the bitmap of `AllocModel`; simulation relation between the heap's page set and the bitmap's bits |
| C65 | `Drain` | the system of `WorkModel` under fair rounds; a measure that every step that changes something decreases, and a proof that nobody can move only when nothing is left |
| C66 | `DevMem` | buffers, queues, devices and waiting callers; invariant: available + resident + queued frees + second charges = initial + uncharged, modulo 2^64 |
| C67 | `DevCopy` | handlers as functions from buffer contents and arguments to contents, task events or abort / undefined; characterised exactly, for all lists and numbers |
| C68 | `DlSim`, `DlConc` | the functions of `DlModel` are blind to the words of live blocks; any number of threads around a test-and-set lock, calls as sequences of steps, stores of the program at any moment; an invariant that replays the history without the pending call |
| C69 | `Locked`, `KvConc`, `BitmapConc` | any number of threads around a spin lock, a call being any number of steps inside; invariant: the state is that of the calls that took effect plus some steps of the one inside; the store one access per step, the bitmap one step per chunk and per count |
| C70 | `Tso`, `QueueTso` | a store buffer per thread; locked instructions and fences wait for it; simulation by the machine without delays, in which a waiting store has not been made; for loads, a run in which the entry is read early |
| C71 | `ObjName`, `ObjNameConc` | heap blocks of bytes, C strings read and stored byte by byte, va_list consumed; refinement to a list of named objects; for threads one byte, one list operation or one lock operation per step, an invariant on who may touch which block |
| C72 | `DevAsync` | streams as queues of operations on a shared memory of buffers; invariant: the operations not yet performed, in the order taken, replayed on the memory give the sequential result; operations of different streams do not conflict and commute |
| C73 | `Handover` | a store buffer for each thread, stores to different words leave in any order or in order; fences and locked instructions wait for an empty buffer; invariant: only the holder of a task has stores to it waiting, and its view of the task is the last value stored |
| C74 | `LockOrder` | every function as a relation to the sequences of lock operations it can perform; a rank for every lock; each function takes locks upwards only; threads that run any sequences of calls |
| C75 | `FreeQueue` | references, device memory, the writes that wait and the free queue of one device; invariant: a release is on its way exactly for the unreferenced buffers with device memory; for the refutation an induction over rounds of the scheduler |
| C76 | `Release` | virtual accelerators with reference count, lock, place and memory; submitting clients, destructors, balancers and workers with their lists; invariant: references = holders, pending counter + workers that look <= tasks waiting on the device, hence a quiet device has no worker with a list |
| C77 | `Assign` | list nodes, list lengths, phys and lock of every virtual accelerator; threads between their unlocked tests and their locked updates; invariant: one thread per virtual accelerator, node = phys, lengths = numbers of nodes |
| C78 | `Elastic` | places, lists of devices, lists of workers and the turn; a call of assignVac with its checks; invariant: place = membership in exactly one list |
| C79 | `Timer` | readings and 64-bit arithmetic of the macros over Z, histories of tasks with a clock that may be set; direct proofs and induction on histories |
| C80 | `Attrs` | fields and threads, one store or load per step; the getters as functions of the state; induction on interleavings against the last value set |
'''
s+='''
## Trusted base

* The Coq 8.16.1 kernel, including `vm_compute` (used for concrete witnesses).
* `Print Assumptions` for every property theorem: closed under the global context, see the appendix. No axiom is used;
  `coqchk` mentions the `Coq.ssr.ssrunder.Under_rel` parameters because that library file is loaded, no theorem uses it.
* Faithfulness of the hand-written model to the C/C++ text: each definition cites its lines and its simplifications.
* Sequential consistency of shared memory (x86-TSO and compiler reorderings are not modelled); correctness of the
  compiler, of `pthread` mutexes, condition variables and semaphores; no signal or crash in the middle of an operation
  unless a file says otherwise.

## What is modelled of the code

| source file | modelled | not modelled |
|---|---|---|
| `src/utils/bitmap.c` | everything but the printing functions | `arax_bmp` printing |
| `src/utils/queue.c` (MPMC) | init, push, pop, peek, used, full: sequential and interleaved | the non-MPMC variant |
| `src/utils/spinlock.h` | all | |
| `src/utils/list.c` | all | |
| `src/utils/Kv.c` | all | |
| `src/utils/config.c` | parser, typed getters, writers, path expansion | `getpwuid` lookup, I/O errors |
| `src/alloc/dlmalloc/alloc.c` | segment layout, `arax_mmap`/`arax_ummap` | dlmalloc itself (`malloc.c`): malloc'ed blocks are assumed disjoint; the tlsf variant |
| `src/async/spin`, `src/async/mutex` | completions, conditions, semaphores used as permits | `ivshmem` unless listed in the table above |
| `src/core/arax_object.c` | register, reference counts, lists, kinds; calls as one step (`Core*`) and interleaved on one object (`ObjConc`) | interleavings over several objects |
| `src/core/arax_accel.c`, `arax_vaccel.c`, `arax_proc.c`, `arax_task.c` | all API functions | statistics getters |
| `src/core/arax_data.c` | init, get/set, arg_init, check_flags, placement, pointer lookup, migration | device allocation accounting unless listed above |
| `src/core/arax_throttle.c` | all, both build options | |
| `src/core/arax_pipe.c` | attach/detach, process table, orphan list, process lookup | |
| `src/core/arax_accel_types.c`, `arax_ptr.c` | all | |
| `src/arch/shm/impl.c` | attach/detach, issue, wait, buffers, accelerator listing | `mmap`/`shm_open` system calls |
| `controller/src/Core/accelThread.cpp` | work loop, device operations as atomic steps | CUDA/OpenCL/HIP/SDA devices |
| `controller/src/Schedulers` | RoundRobin, Heterogeneous, Elastic | the checkpoint and weighted schedulers unless listed above |
| `controller/src/Cpu/CpuBuiltins.cpp` | copy handlers | |

Not modelled at all: GPU/OpenCL/HIP/SDA back-ends, JSON parsing, monitoring and plotting tools, floating point timing.
'''
old=open('/verif/DESIGN.md').read(); mark='## Appendix: Print Assumptions'
open('/verif/DESIGN.md','w').write(s+'\n'+mark+old.split(mark)[1])
