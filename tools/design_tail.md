## Trusted base

1. Coq's kernel (8.16.1) and its guard and universe checks, all left on; `vm_compute` in examples and
   refutation witnesses (a kernel conversion rule). No `native_compute`, no plugins.
2. Axioms: none. Every theorem listed above is "Closed under the global context". `vcheck` reports
   seven declarations of `Coq.ssr.ssrunder` in its list of library axioms: they are the fields of a module type in a
   standard library file that is loaded indirectly; no theorem depends on them.
3. No functors, module types, section-less variables, `Admitted` or obligations are used. `Module Demo.`
   is a plain name space.
4. The faithfulness of the models to the code: the reader's comparison of each definition with the
   cited lines. No extraction, no execution of the Python code (impossible in this sandbox).
5. Semantics of what the code calls, written into the models from their sources or documentation:
   * asyncio: one task runs at a time and is interleaved only at awaits; `Lock`, `Queue`, `Future`
     as in CPython's Lib/asyncio; a task is created with a copy of the creator's context;
   * Python dicts keep insertion order; `heapq`/`PriorityQueue`/`sorted` by what they guarantee;
   * numpy's contiguity flags, `ascontiguousarray`, `ravel` and strided constructor, from its C code;
   * cloudpickle/pickle as a pair of functions with `loads (dumps x) = x` (hypothesis of theorems that
     need it); sha1 as a function with no collision among the inputs in question (hypothesis);
   * floats are exact rationals in `Size*`, `Percentile*`, `Metric*`;
   * in `Id*` (C81) random numbers of different seeds, draws or positions are different, and entropy and uuid1 never repeat; elsewhere
     new message ids and actor ids are taken as new, which C81 shows to fail after a fork and for equal user seeds;
   * shared memory between parent and child is sequentially consistent;
   * in `Store*`/`StoreTalk*` messages of the rendezvous store are sent and received whole and a connection
     fails at message boundaries; `StoreWire*` (C54) proves that bytes and partial transfers do not change that
     picture, except that a cut `multiSet` performs some of its first pairs.

## Not modelled

* the UCX library (assumed: packets in order, a receive fails unless the sizes agree), UCX listeners, the cudf serializer; MLX itself (assumed: reshape(-1).view(uint8) is a row-major copy of the bytes, str of a dtype ends in its name, which for `bool_` is `bool`, and the module has no attribute `bool`); the transfers inside gloo and NCCL
  (C59, C60 assume their documentation).
* Creation of processes and signal handling beyond what C68 models (Windows job objects are not), logging configuration, uvloop, the command line.
* pickle, cloudpickle, fury internals; Cython's compilation; integer overflow of C attributes.
* Wall-clock time: time-outs are events that may happen at any moment (except in C76 and C77, whose models have a clock).
* `ShareableList` and `SharedMemory` of indigen/shared_memory.py (vendored CPython code),
  text files and time-outs of `wait` in `aio/` (C74 models the rest), `nvutils.py` except what C73 models (driver versions, temperatures, memory and core counts are left out), platform-specific code; what uv itself does (C56 assumes its documentation).
* Interaction between models: C61 composes serializer, frames and connection, `C06_over_a_channel` adds the message classes, C65 composes
  calls from the client to the actor; elsewhere each model covers one mechanism and the interfaces are stated as hypotheses or remarks.
