(** The readers of audio files and the two ways a file reaches memory: the part that is read before playing and the part that is streamed.
    Code: src/sfizz/AudioReader.cpp (the three readers, 92-246; createAudioReaderWithHandle, 357-384), src/sfizz/FilePool.cpp
    (readBaseFile, readFromFile, streamFromFile, 73-142; loadFromRam, 412-429).

    A sample is a value of any type [A] with a value [zero] (the content of a cleared buffer).  A buffer is a list of samples; reading or
    writing outside of it is [None], so a theorem that a function returns [Some] says it stays inside of its buffers.
    Counts are natural numbers: the 64 bit counts do not wrap for files under 2^60 samples, and the 32 bit count of readBaseFile is the
    subject of the pool's theorems (FilePool.v). *)
From Coq Require Import List Arith Bool Lia.
Import ListNotations.

Section Readers.
Variable A : Type.
Variable zero : A.

(** ** Buffers *)
(** Reading and writing one element; outside of the buffer is [None]. *)
Definition rd (l : list A) (i : nat) : option A := nth_error l i.
Definition wr (l : list A) (i : nat) (v : A) : option (list A) :=
  if i <? length l then Some (firstn i l ++ v :: skipn (S i) l) else None.

(** A counted loop whose body may fail. *)
Fixpoint for_ {S : Type} (n : nat) (i : nat) (body : nat -> S -> option S) (s : S) : option S :=
  match n with
  | 0 => Some s
  | Datatypes.S m => match body i s with Some s' => for_ m (i + 1) body s' | None => None end
  end.

(** Copying a block to the start of a buffer (std::copy, and what the decoder does with its destination). *)
Definition blit (src buf : list A) : option (list A) :=
  if length src <=? length buf then Some (src ++ skipn (length src) buf) else None.

(** std::swap of two elements of one buffer. *)
Definition swap (l : list A) (i j : nat) : option (list A) :=
  match rd l i, rd l j with
  | Some a, Some b => match wr l i b with Some l' => wr l' j a | None => None end
  | _, _ => None
  end.

(** ** The decoder *)
(** An open file (ST_AudioFile): its channels, the frames its header declares, the interleaved samples it really has (a whole number of
    frames, fewer than declared when the file is cut short), and whether a seek to a frame succeeds. *)
Record handle := Handle { h_channels : nat; h_declared : nat; h_data : list A; h_seek : nat -> bool }.

Definition h_frames (h : handle) : nat := length (h_data h) / h_channels h.

(** read_f32 (st_audiofile_sndfile.c 204-207, sf_readf_float) at a position: the frames there are, at most as many as asked; the new
    buffer, the new position and the count. *)
Definition read_f32 (h : handle) (pos : nat) (buf : list A) (frames : nat) : option (list A * nat * nat) :=
  let got := min frames (h_frames h - pos) in
  match blit (firstn (got * h_channels h) (skipn (pos * h_channels h) (h_data h))) buf with
  | Some buf' => Some (buf', pos + got, got)
  | None => None
  end.

(** ** Reversal, AudioReader.cpp 130-155 *)
(** The frames of a buffer. *)
Fixpoint chunks (C n : nat) (l : list A) : list (list A) :=
  match n with 0 => [] | S m => firstn C l :: chunks C m (skipn C l) end.

(** std::reverse over the buffer seen as frames of [C] samples (135-141), by what the standard says it does. *)
Definition std_reverse (C frames : nat) (buf : list A) : option (list A) :=
  if frames * C <=? length buf then Some (concat (rev (chunks C frames buf)) ++ skipn (frames * C) buf) else None.

(** The loop of the other channel counts (147-153). *)
Definition reverse_loop (buf : list A) (frames channels : nat) : option (list A) :=
  for_ (frames / 2) 0 (fun i b =>
    let j := frames - 1 - i in
    for_ channels 0 (fun c b => swap b (i * channels + c) (j * channels + c)) b) buf.

Definition reverse_frames (buf : list A) (frames channels : nat) : option (list A) :=
  match channels with
  | 1 => std_reverse 1 frames buf
  | 2 => std_reverse 2 frames buf
  | _ => reverse_loop buf frames channels
  end.

(** ** The readers *)
(** The state of a reader: forward, with the position of the handle; backward, with position_ ; backward without seeks, with the
    position of the handle, the whole file once it is read and the frames left; and the reader of a file that could not be opened. *)
Inductive reader :=
| Forward (pos : nat)
| Reverse (position : nat)
| NoSeek (file : option (list A)) (rest : nat)
| Dummy.

(** createAudioReaderWithHandle, 357-384: [h = None] is a file that could not be opened, [fast] is formatHasFastSeeking. *)
Definition create (h : option handle) (reverse fast : bool) : reader :=
  match h with
  | None => Dummy
  | Some h => if negb reverse then Forward 0 else if fast then Reverse (h_declared h) else NoSeek None 0
  end.

(** The size of memory an unopened file has: DummyAudioReader, 309-320: no frames, one channel. *)
Definition dummy_handle : handle := Handle 1 0 [] (fun _ => false).
Definition handle_of (h : option handle) : handle := match h with Some h => h | None => dummy_handle end.

(** NoSeekReverseReader::readWholeFile, 239-246: new float[] leaves the memory undefined, here any content [junk] of the right size.
    The frames left are the frames really read. *)
Definition readWholeFile (h : handle) (junk : nat -> A) : option (list A * nat) :=
  match read_f32 h 0 (map junk (seq 0 (h_channels h * h_declared h))) (h_declared h) with
  | Some (b, _, got) => Some (b, got)
  | None => None
  end.

(** std::copy of [from, to) of the whole file to the buffer. *)
Definition copy_range (file : list A) (from to : nat) (buf : list A) : option (list A) :=
  if to <=? length file then blit (firstn (to - from) (skipn from file)) buf else None.

(** readNextBlock of the four readers (112-119, 184-202, 217-237, 317): the reader, the buffer and the frames delivered.
    A backward read that comes short has already written to the buffer when it gives up. *)
Definition readNextBlock (junk : nat -> A) (h : handle) (r : reader) (buf : list A) (frames : nat)
  : option (reader * list A * nat) :=
  match r with
  | Forward pos =>
      match read_f32 h pos buf frames with
      | Some (buf', pos', got) => Some (Forward pos', buf', if frames =? 0 then 0 else got)
      | None => None
      end
  | Reverse position =>
      let readFrames := min frames position in
      if readFrames =? 0 then Some (r, buf, 0)
      else
        let p := position - readFrames in
        if negb (h_seek h p) then Some (r, buf, 0)
        else match read_f32 h p buf readFrames with
             | Some (buf', _, got) =>
                 if negb (got =? readFrames) then Some (r, buf', 0)
                 else match reverse_frames buf' readFrames (h_channels h) with
                      | Some buf'' => Some (Reverse p, buf'', readFrames)
                      | None => None
                      end
             | None => None
             end
  | NoSeek file rest =>
      match (match file with Some f => Some (f, rest) | None => readWholeFile h junk end) with
      | Some (f, rest) =>
          let readFrames := min frames rest in
          if readFrames =? 0 then Some (NoSeek (Some f) rest, buf, 0)
          else match copy_range f (h_channels h * (rest - readFrames)) (h_channels h * rest) buf with
               | Some buf' =>
                   match reverse_frames buf' readFrames (h_channels h) with
                   | Some buf'' => Some (NoSeek (Some f) (rest - readFrames), buf'', readFrames)
                   | None => None
                   end
               | None => None
               end
      | None => None
      end
  | Dummy => Some (Dummy, buf, 0)
  end.

(** ** Into memory *)
(** readInterleaved as the scalar loop has it (simd/HelpersScalar.h 10-18; inputSize = 2 * frames here, the vector version is the
    subject of Simd.v). *)
Definition readInterleaved (input left right : list A) : option (list A * list A) :=
  for_ (length input / 2) 0 (fun i '(l, r) =>
    match rd input (2 * i), rd input (2 * i + 1) with
    | Some a, Some b => match wr l i a, wr r i b with Some l', Some r' => Some (l', r') | _, _ => None end
    | _, _ => None
    end) (left, right).

(** readBaseFile / readFromFile, FilePool.cpp 73-99: the channels of the buffer.  A Buffer is zeroed when it is allocated (calloc,
    Buffer.h 130). The count that the reader delivers is not looked at. *)
Definition readFromFile (junk : nat -> A) (h : handle) (r : reader) (numFrames : nat) : option (list (list A)) :=
  match h_channels h with
  | 1 => match readNextBlock junk h r (repeat zero numFrames) numFrames with
         | Some (_, b, _) => Some [b]
         | None => None
         end
  | 2 => match readNextBlock junk h r (repeat zero (2 * numFrames)) numFrames with
         | Some (_, b, _) =>
             match readInterleaved b (repeat zero numFrames) (repeat zero numFrames) with
             | Some (l, rr) => Some [l; rr]
             | None => None
             end
         | None => None
         end
  | _ => Some []
  end.

(** The innermost loop of streamFromFile, 131-132: [outputChunk] is the span of the channel from [off]. *)
Definition write_channel (block : list A) (numChannels chan off n : nat) (out : list A) : option (list A) :=
  for_ n 0 (fun i o => match rd block (i * numChannels + chan) with
                       | Some v => wr o (off + i) v
                       | None => None
                       end) out.

(** The loop over the channels, 129-133. *)
Fixpoint write_channels (block : list A) (numChannels chan off n : nat) (outs : list (list A)) : option (list (list A)) :=
  match outs with
  | [] => Some []
  | o :: outs' =>
      match write_channel block numChannels chan off n o, write_channels block numChannels (chan + 1) off n outs' with
      | Some o', Some outs'' => Some (o' :: outs'')
      | _, _ => None
      end
  end.

(** The loop of streamFromFile, 114-141.  [fuel] bounds the rounds: every round but the last reads a frame or more, so the number of
    frames plus one is enough (the theorems start it there; out of fuel is [None]). The last component is filledFrames. *)
Fixpoint stream_loop (junk : nat -> A) (h : handle) (chunk fuel : nat) (r : reader) (block : list A) (counter : nat)
  (outs : list (list A)) (filled : nat) : option (list (list A) * nat) :=
  match fuel with
  | 0 => None
  | S fuel' =>
      if negb (counter <? h_declared h) then Some (outs, filled)
      else
        let this := min chunk (h_declared h - counter) in
        match readNextBlock junk h r block this with
        | Some (r', block', got) =>
            if got =? 0 then Some (outs, filled)
            else
              let eof := got <? this in
              let n := if eof then got else this in
              match write_channels block' (h_channels h) 0 counter n outs with
              | Some outs' =>
                  if eof then Some (outs', filled + n)
                  else stream_loop junk h chunk fuel' r' block' (counter + n) outs' (filled + n)
              | None => None
              end
        | None => None
        end
  end.

(** streamFromFile, 101-142, with the chunk size (config::fileChunkSize, 1024) as a parameter; the channels and the frames filled. *)
Definition streamFromFile (junk : nat -> A) (chunk : nat) (h : handle) (r : reader) : option (list (list A) * nat) :=
  stream_loop junk h chunk (h_declared h + 1) r (repeat zero (chunk * h_channels h)) 0
    (repeat (repeat zero (h_declared h)) (h_channels h)) 0.

(** loadFromRam, FilePool.cpp 412-429: the information of a file without one or two channels is an empty optional (getReaderInformation,
    248-250) and is dereferenced all the same ([None]). *)
Definition loadFromRam (junk : nat -> A) (h : handle) (reverse fast : bool) : option (list (list A)) :=
  match readFromFile junk h (create (Some h) reverse fast) (h_declared h) with
  | Some d => if (h_channels h =? 1) || (h_channels h =? 2) then Some d else None
  | None => None
  end.

End Readers.

Arguments Handle {A}. Arguments h_channels {A}. Arguments h_declared {A}. Arguments h_data {A}. Arguments h_seek {A}.
Arguments h_frames {A}. Arguments rd {A}. Arguments wr {A}. Arguments blit {A}. Arguments swap {A}. Arguments read_f32 {A}.
Arguments chunks {A}. Arguments std_reverse {A}. Arguments reverse_loop {A}. Arguments reverse_frames {A}. Arguments Forward {A}.
Arguments Reverse {A}. Arguments NoSeek {A}. Arguments Dummy {A}. Arguments create {A}. Arguments readWholeFile {A}.
Arguments copy_range {A}. Arguments readNextBlock {A}. Arguments readInterleaved {A}. Arguments readFromFile {A}.
Arguments write_channel {A}. Arguments write_channels {A}. Arguments stream_loop {A}. Arguments streamFromFile {A}.
Arguments loadFromRam {A}. Arguments handle_of {A}. Arguments dummy_handle {A}.
