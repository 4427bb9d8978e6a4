(** Model of the file pool: the data of one sample file shared by the voices, the loading jobs and the collector, and
    the size of its preloaded part.
    Code: src/sfizz/FilePool.cpp, FilePool.h.
    Simplifications: one file (the entries of the maps do not share data); the atomics are sequentially consistent
    (std::atomic with the default order); the preloaded data does not change while voices play; the hash maps do not
    move the entry while it is in use (absl::flat_hash_map may, when another file is inserted); times (secondsIdle)
    are not modelled: the collector may run at any time. *)
From Coq Require Import ZArith List Lia Bool.
Import ListNotations.

(** ** The shared data *)
(** FileData::Status, FilePool.h 70; Invalid is only there while the entry is being inserted. *)
Inductive status := Preloaded | Streaming | Done | Collecting.
Definition status_eqb (a b : status) : bool :=
  match a, b with Preloaded, Preloaded | Streaming, Streaming | Done, Done | Collecting, Collecting => true | _, _ => false end.
(** FileData, FilePool.h 68-123: status, availableFrames, readerCount and fileData.  [s_data] is [None] when fileData was
    moved away; otherwise the serial number of the allocation and the frames in it. *)
Record shared := Shared { s_status : status; s_avail : nat; s_count : nat; s_data : option (nat * list Z); s_fresh : nat }.

Section Threads.
(** The frames of the file, as the reader delivers them, and the number of preloaded frames. *)
Variable file : list Z.
Variable preloaded : nat.

(** ** A voice *)
(** The handle is taken (FileDataHolder, FilePool.h 142-148); then getData (lines 77-84) any number of times, with its
    atomic loads apart: the status, availableFrames for the comparison, the buffer, availableFrames for the length;
    then frames are read from the span; then the handle is given back (reset, lines 149-157). *)
Inductive reader :=
| RIdle | RHeld
| RStatus (s : status)
| RCompared
| RBuffer (serial : nat)
| RSpan (serial n : nat)
| RPreloaded.
Inductive readerStep : shared -> reader -> shared -> reader -> Prop :=
| R_acquire st av c d f : readerStep (Shared st av c d f) RIdle (Shared st av (S c) d f) RHeld
| R_status s : readerStep s RHeld s (RStatus (s_status s))
| R_collecting s : readerStep s (RStatus Collecting) s RPreloaded
| R_less s x : x <> Collecting -> s_avail s <= preloaded -> readerStep s (RStatus x) s RPreloaded
| R_more s x : x <> Collecting -> preloaded < s_avail s -> readerStep s (RStatus x) s RCompared
| R_buffer s g data : s_data s = Some (g, data) -> readerStep s RCompared s (RBuffer g)
| R_length s g : readerStep s (RBuffer g) s (RSpan g (s_avail s))
| R_read s g n : readerStep s (RSpan g n) s (RSpan g n)
| R_drop s g n : readerStep s (RSpan g n) s RHeld
| R_drop_preloaded s : readerStep s RPreloaded s RHeld
| R_release st av c d f : readerStep (Shared st av (S c) d f) RHeld (Shared st av c d f) RIdle.

(** ** A loading job *)
(** loadingJob, FilePool.cpp 480-540: the status is loaded (502-526), exchanged for Streaming (529); then streamFromFile
    (101-142): the buffer is made anew (107-110), a chunk is copied (131-135), availableFrames advanced (140), until the end
    of the file or a short read; then the status is Done (535). *)
Inductive loader :=
| LStart
| LTry
| LReset
| LFill (pos : nat)
| LWritten (pos c : nat)
| LEnd.
Definition writeAt (pos : nat) (chunk data : list Z) : list Z := firstn pos data ++ chunk ++ skipn (pos + length chunk) data.
Inductive loaderStep : shared -> loader -> shared -> loader -> Prop :=
| L_wait s : s_status s <> Preloaded -> loaderStep s LStart s LStart
| L_load s : s_status s = Preloaded -> loaderStep s LStart s LTry
| L_exchange av c d f : loaderStep (Shared Preloaded av c d f) LTry (Shared Streaming av c d f) LReset
| L_failed s : s_status s <> Preloaded -> loaderStep s LTry s LStart
| L_reset st av c d f : loaderStep (Shared st av c d f) LReset (Shared st av c (Some (f, repeat 0%Z (length file))) (S f)) (LFill 0)
| L_write st av c g data f pos n : 0 < n -> pos + n <= length file ->
    loaderStep (Shared st av c (Some (g, data)) f) (LFill pos)
      (Shared st av c (Some (g, writeAt pos (firstn n (skipn pos file)) data)) f) (LWritten pos n)
| L_advance st av c d f pos n : loaderStep (Shared st av c d f) (LWritten pos n) (Shared st (av + n) c d f) (LFill (pos + n))
| L_finish s pos : loaderStep s (LFill pos) s LEnd
| L_done st av c d f : loaderStep (Shared st av c d f) LEnd (Shared Done av c d f) LStart.

(** ** The collector *)
(** The body of triggerGarbageCollection for the file, FilePool.cpp 677-706; the lock (659) leaves one at a time. *)
Inductive collector :=
| GStart | GStatus | GAvail
| GTry (x : status) | GRecheck (x : status)
| GZero | GMove | GBack
| GRestore (x : status).
Inductive collectorStep : shared -> collector -> shared -> collector -> Prop :=
| G_busy s : s_count s <> 0 -> collectorStep s GStart s GStart
| G_unused s : s_count s = 0 -> collectorStep s GStart s GStatus
| G_preloaded s : s_status s = Preloaded -> collectorStep s GStatus s GAvail
| G_done s : s_status s = Done -> collectorStep s GStatus s (GTry Done)
| G_other s : s_status s <> Preloaded -> s_status s <> Done -> collectorStep s GStatus s GStart
| G_empty s : s_avail s = 0 -> collectorStep s GAvail s GStart
| G_some s : s_avail s <> 0 -> collectorStep s GAvail s (GTry Preloaded)
| G_exchange x av c d f : collectorStep (Shared x av c d f) (GTry x) (Shared Collecting av c d f) (GRecheck x)
| G_failed s x : s_status s <> x -> collectorStep s (GTry x) s GStart
| G_free s x : s_count s = 0 -> collectorStep s (GRecheck x) s GZero
| G_used s x : s_count s <> 0 -> collectorStep s (GRecheck x) s (GRestore x)
| G_zero st av c d f : collectorStep (Shared st av c d f) GZero (Shared st 0 c d f) GMove
| G_move st av c d f : collectorStep (Shared st av c d f) GMove (Shared st av c None f) GBack
| G_back st av c d f : collectorStep (Shared st av c d f) GBack (Shared Preloaded av c d f) GStart
| G_restore st av c d f x : collectorStep (Shared st av c d f) (GRestore x) (Shared x av c d f) GStart.

(** ** All of them together, one atomic step of one of them at a time *)
Record system := System { y_shared : shared; y_readers : list reader; y_loaders : list loader; y_collector : collector }.
Definition setNth {A} (i : nat) (x : A) (l : list A) : list A := firstn i l ++ x :: skipn (S i) l.
Inductive step : system -> system -> Prop :=
| Step_reader s rs ls g i r s' r' : nth_error rs i = Some r -> readerStep s r s' r' ->
    step (System s rs ls g) (System s' (setNth i r' rs) ls g)
| Step_loader s rs ls g i l s' l' : nth_error ls i = Some l -> loaderStep s l s' l' ->
    step (System s rs ls g) (System s' rs (setNth i l' ls) g)
| Step_collector s rs ls g s' g' : collectorStep s g s' g' -> step (System s rs ls g) (System s' rs ls g').
(** After preloadFile (FilePool.cpp 345-352): no handle, nothing streamed. *)
Definition initial (readers loaders : nat) : system :=
  System (Shared Preloaded 0 0 None 0) (repeat RIdle readers) (repeat LStart loaders) GStart.
Inductive reachable : system -> Prop :=
| Reach_initial n m : reachable (initial n m)
| Reach_step x y : reachable x -> step x y -> reachable y.
End Threads.

(** ** The size of the preloaded part *)
Local Open Scope Z_scope.
(** What the pool keeps: loadInRam, preloadSize and, for the file, the number of preloaded frames and
    information.maxOffset when it was preloaded. *)
Record pool := Pool { p_ram : bool; p_size : Z; p_file : option (Z * Z) }.
Definition u32 (x : Z) : Z := x mod 2 ^ 32.
Section Preload.
(** The number of frames of the file, less than 2^32. *)
Variable frames : Z.
(** preloadFile, FilePool.cpp 310-356: maxOffset + preloadSize in 32 bits (331). *)
Definition preloadFile (maxOffset : Z) (p : pool) : pool :=
  let toLoad := if p_ram p then frames else Z.min frames (u32 (maxOffset + p_size p)) in
  match p_file p with
  | Some (n, off) => if n <? toLoad then Pool (p_ram p) (p_size p) (Some (toLoad, maxOffset)) else p
  | None => Pool (p_ram p) (p_size p) (Some (toLoad, maxOffset))
  end.
(** setPreloadSize, lines 460-478: the sum in 64 bits. *)
Definition setPreloadSize (size : Z) (p : pool) : pool :=
  if p_ram p then Pool (p_ram p) size (p_file p) else
  Pool (p_ram p) size (match p_file p with Some (n, off) => Some (Z.min frames (off + size), off) | None => None end).
(** setRamLoading, lines 634-655: in memory, information.end frames are read, one less than the file has
    (getReaderInformation, 253). *)
Definition setRamLoading (ram : bool) (p : pool) : pool :=
  if Bool.eqb ram (p_ram p) then p else
  let p := Pool ram (p_size p) (p_file p) in
  if ram then Pool ram (p_size p) (match p_file p with Some (n, off) => Some (frames - 1, off) | None => None end)
  else setPreloadSize (p_size p) p.
Inductive request := Preload (maxOffset : Z) | Size (n : Z) | Ram (b : bool).
Definition perform (p : pool) (r : request) : pool :=
  match r with Preload o => preloadFile o p | Size n => setPreloadSize n p | Ram b => setRamLoading b p end.
Definition history (l : list request) (p : pool) : pool := fold_left perform l p.
End Preload.
