(** Model of the reading of metadata from sample files: the list of chunks of RIFF, AIFF and FLAC files, the data of a
    chunk, and the loops of the instrument chunks.
    Code: src/sfizz/FileMetadata.cpp, FileMetadata.h, FilePool.cpp (getReaderInformation).
    Simplifications: a file is a list of bytes; std::fread and std::fseek are those of the C standard on a file that can
    be read and seeked; sums of positions do not leave the 64 bit range; the wavetable chunks, the gain, the detuning and
    the key ranges are not modelled. *)
From Coq Require Import ZArith List Lia Bool.
Import ListNotations.
Local Open Scope Z_scope.

(** MemoryMetadataReader or FileMetadataReader. *)
Inductive kind := Memory | Stream.
(** RiffChunkInfo, FileMetadata.h 20-25, without the index, which is the place in the list. *)
Record chunk := Chunk { c_offset : Z; c_id : list Z; c_length : Z }.
(** u32le, u32be, u16be, FileMetadata.cpp 33-53. *)
Definition le32 (b : list Z) : Z := nth 0 b 0 + 256 * nth 1 b 0 + 65536 * nth 2 b 0 + 16777216 * nth 3 b 0.
Definition be32 (b : list Z) : Z := nth 3 b 0 + 256 * nth 2 b 0 + 65536 * nth 1 b 0 + 16777216 * nth 0 b 0.
Definition be16 (b : list Z) : Z := nth 1 b 0 + 256 * nth 0 b 0.
Fixpoint listEqb (a b : list Z) : bool :=
  match a, b with [], [] => true | x :: a, y :: b => (x =? y) && listEqb a b | _, _ => false end.
Definition u32 (x : Z) : Z := x mod 2 ^ 32.

Section Reader.
(** The bytes of the file, the reader, and whether `long` has 64 bits (otherwise 32). *)
Variable file : list Z.
Variable k : kind.
Variable wide : bool.
Definition len : Z := Z.of_nat (length file).
Definition sub (off n : Z) : list Z := firstn (Z.to_nat n) (skipn (Z.to_nat off) file).
(** Conversion of a 32 bit unsigned number to `long`. *)
Definition toLong (x : Z) : Z := if wide then x else (x + 2 ^ 31) mod 2 ^ 32 - 2 ^ 31.
(** doRead: FileMetadata.cpp 636-639 (fread) and 686-695; the bytes, the number of items and the new position.  [None] is the
    division by zero of the memory reader. *)
Definition doRead (size n pos : Z) : option (list Z * Z * Z) :=
  match k with
  | Memory =>
      if size =? 0 then None else
      let count := (Z.min (pos + n * size) len - pos) / size in
      Some (sub pos (count * size), count, pos + count * size)
  | Stream =>
      if (size =? 0) || (n =? 0) then Some ([], 0, pos) else
      let got := Z.min (n * size) (Z.max 0 (len - pos)) in
      Some (sub pos got, got / size, pos + got)
  end.
(** doSeek, lines 641-644 (fseek) and 697-744, with SEEK_SET and SEEK_CUR. *)
Definition seekSet (off : Z) : option Z :=
  match k with
  | Memory => if (off <? 0) || (len <? off) then None else Some off
  | Stream => if off <? 0 then None else Some off
  end.
Definition seekCur (off pos : Z) : option Z :=
  match k with
  | Memory => if (pos + off <? 0) || ((0 <=? off) && (len <? pos + off)) then None else Some (pos + off)
  | Stream => if pos + off <? 0 then None else Some (pos + off)
  end.
(** doRead(…, n, 1) == 1 for [n] > 0, as in read_u32le and the others (lines 81-117). *)
Definition readItem (n pos : Z) : option (list Z) * Z :=
  match doRead n 1 pos with
  | Some (b, c, pos') => (if c =? 1 then Some b else None, pos')
  | None => (None, pos)
  end.

(** ** The chunks *)
Inductive outcome := Running | Failed | Opened (l : list chunk).
(** openRiff and openAiff, lines 229-243 and 268-281: one more step for each unit of [fuel]; [word] is le32 or be32. *)
Fixpoint chunkLoop (word : list Z -> Z) (fuel : nat) (pos : Z) (acc : list chunk) : outcome :=
  match fuel with
  | O => Running
  | S fuel =>
      match readItem 4 pos with
      | (Some id, p1) =>
          match readItem 4 p1 with
          | (Some w, p2) =>
              let size := word w in
              let acc := acc ++ [Chunk p2 id size] in
              match seekCur (toLong (u32 (size + Z.land size 1))) p2 with
              | Some p3 => chunkLoop word fuel p3 acc
              | None => Failed
              end
          | _ => Opened acc
          end
      | _ => Opened acc
      end
  end.
Definition openRiff (fuel : nat) : outcome :=
  match seekSet 12 with Some p => chunkLoop le32 fuel p [] | None => Failed end.
Definition str (l : list Z) (b : option (list Z)) : bool := match b with Some b => listEqb l b | None => false end.
(** openAiff, lines 246-282. *)
Definition FORM : list Z := [70; 79; 82; 77].
Definition AIFF : list Z := [65; 73; 70; 70].
Definition AIFC : list Z := [65; 73; 70; 67].
Definition openAiff (fuel : nat) : outcome :=
  let (form, p1) := readItem 4 0 in
  if negb (str FORM form) then Failed else
  match readItem 4 p1 with
  | (Some _, p2) =>
      let (aiff, p3) := readItem 4 p2 in
      if str AIFF aiff || str AIFC aiff then chunkLoop be32 fuel p3 [] else Failed
  | _ => Failed
  end.
(** openFlac, lines 180-220: a block of type 2 may hold a RIFF chunk; blockSize - 12 in 32 bits (line 204). *)
Definition riff : list Z := [114; 105; 102; 102].
Definition flacChunk (start blockSize : Z) : list chunk :=
  match readItem 4 start with
  | (Some b, p1) =>
      if listEqb riff b then
        match readItem 4 p1 with
        | (Some id, p2) =>
            match readItem 4 p2 with
            | (Some w, p3) => if le32 w <=? u32 (blockSize - 12) then [Chunk p3 id (le32 w)] else []
            | _ => []
            end
        | _ => []
        end
      else []
  | _ => []
  end.
Fixpoint flacLoop (fuel : nat) (pos : Z) (acc : list chunk) : outcome :=
  match fuel with
  | O => Running
  | S fuel =>
      match readItem 4 pos with
      | (Some w, start) =>
          let header := be32 w in
          let blockType := Z.land (Z.shiftr header 24) 127 in
          let blockSize := Z.land header 16777215 in
          let acc := acc ++ (if blockType =? 2 then flacChunk start blockSize else []) in
          match seekSet (start + blockSize) with
          | Some next => if Z.land (Z.shiftr header 31) 1 =? 1 then Opened acc else flacLoop fuel next acc
          | None => Failed
          end
      | _ => Failed
      end
  end.
Definition openFlac (fuel : nat) : outcome := match seekSet 4 with Some p => flacLoop fuel p [] | None => Failed end.

(** ** The data of a chunk *)
(** readRiffData, lines 318-330: the bytes written to the buffer; none when the index or the seek fails. *)
Definition readRiffData (chunks : list chunk) (index : nat) (count : Z) : list Z :=
  match nth_error chunks index with
  | None => []
  | Some c =>
      match seekSet (c_offset c) with
      | None => []
      | Some p => match doRead 1 (if count <? c_length c then count else c_length c) p with Some (b, _, _) => b | None => [] end
      end
  end.

(** ** The instrument *)
(** The loops of InstrumentInfo and its base note; the mode is 0 none, 1 forward, 2 backward, 3 alternating. *)
Record loop := Loop { l_mode : Z; l_start : Z; l_end : Z; l_count : Z }.
(** riffChunkById, lines 304-311: the first chunk with the identifier. *)
Fixpoint findChunk (id : list Z) (i : nat) (l : list chunk) : option nat :=
  match l with
  | [] => None
  | c :: l => if listEqb (c_id c) id then Some i else findChunk id (S i) l
  end.
(** extractU32, lines 358-363: zero when the four bytes are not all read. *)
Definition extractU32 (data : list Z) (off : Z) : Z :=
  if Z.of_nat (length data) <? off + 4 then 0 else le32 (firstn 4 (skipn (Z.to_nat off) data)).
(** extractRiffInstrument, lines 343-401: at most 16 loops; the end is one more than stored, in 32 bits. *)
Definition smpl : list Z := [115; 109; 112; 108].
Definition riffLoop (data : list Z) (i : nat) : loop :=
  let off := 36 + Z.of_nat i * 24 in
  let m := extractU32 data (off + 4) in
  Loop (if m =? 0 then 1 else if m =? 1 then 3 else if m =? 2 then 2 else 0)
    (extractU32 data (off + 8)) (u32 (extractU32 data (off + 12) + 1)) (extractU32 data (off + 20)).
Definition extractRiff (chunks : list chunk) : option (Z * list loop) :=
  match findChunk smpl 0 chunks with
  | None => None
  | Some index =>
      let data := readRiffData chunks index (9 * 4 + 16 * 6 * 4) in
      let n := Z.min 16 (extractU32 data 28) in
      Some (extractU32 data 12, map (riffLoop data) (seq 0 (Z.to_nat n)))
  end.
(** The markers, lines 421-448: [None] is undefined behaviour, [Some None] a failure. *)
Fixpoint markers (n : nat) (pos : Z) (acc : list (Z * Z)) : option (option (list (Z * Z))) :=
  match n with
  | O => Some (Some acc)
  | S n =>
      match readItem 2 pos with
      | (Some id, p1) =>
          match readItem 4 p1 with
          | (Some position, p2) =>
              match readItem 1 p2 with
              | (Some size, p3) =>
                  let size := nth 0 size 0 in
                  match doRead size 1 p3 with
                  | None => None
                  | Some (_, c, p4) =>
                      if negb (c =? 1) then Some None else
                      let acc := (be16 id, be32 position) :: acc in
                      if negb (Nat.eqb n 0) && Z.even size then
                        match seekCur 1 p4 with Some p5 => markers n p5 acc | None => Some None end
                      else markers n p4 acc
                  end
              | _ => Some None
              end
          | _ => Some None
          end
      | _ => Some None
      end
  end.
Fixpoint marker (id : Z) (l : list (Z * Z)) : Z := match l with [] => 0 | (i, p) :: l => if i =? id then p else marker id l end.
(** extractAiffInstrument, lines 403-504. *)
Definition INST : list Z := [73; 78; 83; 84].
Definition MARK : list Z := [77; 65; 82; 75].
Definition aiffLoops (ins : list Z) (ms : list (Z * Z)) : list loop :=
  let one off :=
    let m := be16 (skipn off ins) in
    let mode := if m =? 1 then 1 else if m =? 2 then 2 else 0 in
    Loop mode (marker (be16 (skipn (off + 2) ins)) ms) (marker (be16 (skipn (off + 4) ins)) ms) 0 in
  let a := one 8%nat in
  let b := one 14%nat in
  if l_mode a =? 0 then [] else if l_mode b =? 0 then [a] else [a; b].
Definition extractAiff (chunks : list chunk) : option (option (Z * list loop)) :=
  match findChunk INST 0 chunks with
  | None => Some None
  | Some inst =>
      let ins := readRiffData chunks inst 20 in
      if negb (Z.of_nat (length ins) =? 20) then Some None else
      match findChunk MARK 0 chunks with
      | None => Some (Some (nth 0 ins 0, aiffLoops ins []))
      | Some mk =>
          match seekSet (c_offset (nth mk chunks (Chunk 0 [] 0))) with
          | None => Some None
          | Some p =>
              match readItem 2 p with
              | (Some n, p1) =>
                  match markers (Z.to_nat (be16 n)) p1 [] with
                  | None => None
                  | Some None => Some None
                  | Some (Some ms) => Some (Some (nth 0 ins 0, aiffLoops ins ms))
                  end
              | _ => Some None
              end
          end
      end
  end.
End Reader.
(** The loop kept by getReaderInformation, FilePool.cpp 246-280: [frames] < 2^32 of the file, as 64 bit numbers. *)
Definition keptLoop (frames : Z) (loops : list loop) : option (Z * Z) :=
  match loops with
  | [] => None
  | l :: _ => Some (l_start l, Z.min (u32 (frames - 1)) (u32 (l_end l - 1)))
  end.
