# Formal model of sfizz in Rocq: design

Read together with `properties.jsonl` (what is claimed), `MANIFEST.json` (which theorem settles which claim, and
what is missing where the status is partial), `rocq/theories/` (model, specification, proofs) and
`seeded/LOG.jsonl` (wrong programs tried against the theorems).

## 1. Conventions

* One area of the code = `XModel.v` (transcription of the C++ code, definitions only, each with a comment that cites
  file and lines and states its simplifications), sometimes `XSpec.v` (specification that uses nothing of the model),
  and files with lemmas, theorems (`Cnn_…`) and examples (`Cnn_…_ex`). Small areas merge these files.
* Integers: `Z` with explicit wrap-around (`mod 2^32`, ...) where the C++ type matters, `nat` for list indices and
  fuel. Bytes are `Z` in `[0,256)`.
* Floating point numbers are rationals. Where the code computes, either each operation is followed by a rounding
  function `rnd` about which the theorems assume what they need (nothing; monotone; small relative error; exact), or
  the arithmetic is exact and this is stated in the head of the model. `Rounding.v` defines binary32 rounding (to
  nearest, ties to even, no overflow) and shows that it meets the assumptions; refutations that need rounding compute
  with it. Infinities and NaN are not modelled.
* Loops whose termination is a claim are a step relation, or have fuel plus a theorem that some fuel suffices.
* Undefined behaviour is an outcome of its own (`None`, an error constructor), never a default value.
* When a property is false of the code the model stays faithful: `Cnn_…_refuted` proves a concrete counterexample, and
  the strongest true part found is proved next to it. The claim is then `partial` in the manifest unless the
  counterexample is outside the claim as worded.

## 2. Models

Paths are below `src/sfizz` of the repository.

| Files | Code | Claims |
|-------|------|--------|
| `Osc*` | `Messaging.cpp`: OSC message writer and reader | C01-C03 |
| `Base64*` | `utility/Base64.h` | C04 |
| `Parser*` | `parser/Parser.cpp`, `ParserPrivate`: reader, comments, includes, defines, opcodes | C05-C08, C54, C55, C84 |
| `Opcode*` | `Opcode.cpp`, `OpcodeCleanup.re`, readers of numbers and notes, parameters | C09-C12, C56, C57 |
| `Midi*` | `MidiState.cpp` | C13-C15, C49 |
| `Layer*` | `Layer.cpp`, the dispatch of `Synth.cpp` to layers | C16-C18, C44, C50, C51, C78 |
| `ValueModel`, `Values`, `ValueNumbers`, `ValueRanges` | `Opcode.cpp` (floats, booleans, words), `Defaults.h`, the float table of `Defaults.cpp`, `StringViewHelpers.h` readLeadingFloat, `normalize7Bits` | C74-C76 |
| `Voice*` | `VoiceManager.cpp`, `SisterVoiceRing`, `PolyphonyGroup`, `RegionSet`, `VoiceStealing.cpp`, voice states of `Voice.cpp`, `Synth.cpp` dispatch | C19-C23, C45, C46, C52-C54, C73 |
| `Pool*` | `BufferPool.h` | C24 |
| `FilePool*` | `FilePool.cpp`, `FilePool.h`: data shared by voices, loaders and collector; sizes of the preloaded part | C25, C26 |
| `Mod*` | `modulations/ModKey`, `ModId`, `ModMatrix` | C27-C29, C58-C60 |
| `Containers*` | `CCMap.h`, `SwapAndPop.h`, `BitArray.h`, `Range.h` | C30-C32, C47 |
| `Adsr*` | `ADSREnvelope.cpp` | C33, C34, C77 |
| `Curve*` | `Curve.cpp` | C35, C61 |
| `CcEnv*`, `Crossfade` | `ModifierHelpers.h`, crossfade gains | C36, C39 |
| `Clock*` | `BeatClock.cpp` | C37 |
| `Lfo*` | `LFO.cpp`, `wrapPhase` | C38, C62 |
| `Play*` | `Voice.cpp`: fillWithData, loop and one-shot indices, crossfade reads | C40, C41 |
| `Follower*` | `PowerFollower.cpp` | C42 |
| `Meta*` | `FileMetadata.cpp`: RIFF, AIFF, FLAC chunk scan, instrument loops | C43, C63 |
| `Smoother*` | `Smoothers.cpp`, linear smoother | C48 |
| `Load*` | `Synth.cpp`: header blocks, control opcodes, key part of `Region::parseOpcode`, region sets, activation and keyswitch lists | C64-C67, C70 |
| `SampleRange*` | position opcodes of `Region.cpp`, `finalizeSfzLoad`, `RegionStateful.cpp`: offsets, ends, loops | C68, C69 |
| `Reader*` | `AudioReader.cpp`: the readers above the decoder; `FilePool.cpp`: readBaseFile, streamFromFile, loadFromRam | C79 |
| `Simd*` | `simd/HelpersSSE.cpp`, `simd/HelpersScalar.h`: the loops, the addresses and the order of operations; arithmetic of samples is a parameter | C80, C81 |
| `Mix*` | `Synth.cpp`: `renderBlock` (sums of voices, buses, outputs, volume), `handleEffectOpcodes`, `addEffectBusesIfNecessary`, outputs in `finalizeSfzLoad`; `Effects.cpp`: `EffectBus`. Voices and effects are parameters, addition is exact | C82, C83 |
| `Interp*` | `Interpolators.hpp`, `hermite3` and `bspline3` of `MathHelpers.h`, table and reads of `WindowedSinc.*`. Weights are exact, the values in the table are a parameter | C85 |
| `Message*` | `SynthMessaging.cpp`, `SynthMessagingHelper.hpp`: choice of the case, numbers in the path, the element that is reached, what is added. The values that are answered and set are not modelled | C87, C88 |
| `Region*` | `Region.cpp`: `parseOpcode` with all its cases, parsers of LFO and envelope opcodes of both versions, connections; values of opcodes abstract | C92, C93, C94 |
| `NoteStart*` | `RegionStateful.cpp` (gain, volume and pitch of a starting note), `Voice.cpp` 419-425 and 503-505, `Region.cpp` 1780-1789; exact arithmetic, reals for the powers | C89 |
| `Tuning*`, `Stretch` | `Tuning.cpp`, `railsback/*.h`; `external/tunings/src/Tunings.cpp`: reading of scales, table of pitches for mappings without keys. Real numbers for pitches, exact decimals for the stretch tables | C90, C91 |
| `Pan*` | `Panning.cpp`, over the real numbers; the position is rounded | C86 |
| `Memory*` | `Buffer.h`: memory as blocks of bytes, the answers of `calloc` are inputs; counters of `Synth.h` | C95 |
| `Controller*` | `modulations/sources/Controller.cpp`, exact arithmetic, curve a parameter; what voices of a cycle read of it (`ModMatrix.cpp` 416-435) | C96 |
| `Wavetable*` | `Wavetables.{h,cpp}` without the FFT: padding, table choice, lookup, phase; the unison setup of `Voice.cpp` 1909-1953; where the phase comes from | C97 |
| `Band*` | choice of table and harmonics of a table (`Wavetables.cpp` 186-375) over the reals, the inverse transform as its formula | C98 |
| `Setup*` | sample rate, block size and number of the parts of voices and buses over API calls (`Synth.cpp`, `Voice.cpp` 738-775, 1802-1908, constructors of filter holders) | C99 |
| `FilterUnion*` | life of the filter objects, chunks, holders and chains of filters of voices (`SfzFilter.cpp`, `FilterPool.cpp`, `EQPool.cpp`, `Voice.cpp` 1032-1065); the arithmetic of a frame is a parameter | C100 |
| `EffectsModel`, `Effects`, `EffectBlocks`, `EffectBus` | effects of the buses on blocks and buffers, their memory and clearing, chains of effects (`effects/*.cpp` but filter and eq, `EffectBus::process`, oversamplers of hiir); what generated code does to one frame is a parameter | C101 |
| `EnergyModel`, `Energy`, `EnergyLevels` | the generated kernels of compressor, gate and limiter (`effects/gen/*.hxx`) and the effects over rational numbers: energy, levels, silence; poles, log10 and pow are parameters | C102 |
| `UnknownModel`, `Unknown`, `UnknownList` | how the regions of a file collect and skip opcodes that are not understood (`Synth.cpp` 156-180) and the list of `sfizz_get_unknown_opcodes`; the region is `RegionModel`, values are parameters | C103 |
| `ImportModel`, `Import` | which files are imported (`sfizz_import.cpp`, `ForeignInstrument.cpp`), the SFZ text for an audio file (`AudioFile.cpp`) and for a preset (`DecentSampler.cpp` 43-228), read by the parser of `ParserModel`; XML, numbers with fractions and the result of `std::sort` are parameters | C104 |
| `Lofi` | what the two loops of `Lofi.cpp` (113-209, in `EffectsModel`) hold, round and take; rounding and phases in exact numbers | C105 |
| `Flex*` | `FlexEnvelope.cpp` without dynamic envelopes | C71, C72 |
| `Rounding` | binary32 | used by the above |

## 3. Trusted base

* The kernel of Coq 8.16.1; the whole development is checked again with `coqchk`.
* Axioms: none of our own. `Print Assumptions` answers "Closed under the global context" for every theorem of the
  manifest except those of C86 and C98 and some of C89 and C90, which use the real numbers of the standard library and list exactly its axioms
  `ClassicalDedekindReals.sig_forall_dec`, `ClassicalDedekindReals.sig_not_dec` and
  `FunctionalExtensionality.functional_extensionality_dep`, those of C89 and C90 that speak of gains, pitch ratios
  and frequencies, and those of C98 that speak of tables, also `Classical_Prop.classic`.
  (Section hypotheses, such as a monotone rounding, become premises of the theorem; `Rounding.v` shows that they can
  be met).
* The transcription from C++ to Gallina, done by hand. Every definition cites its source.

## 4. Not modelled

Filters, effects, resampling kernels and Fourier transforms as signal processing (the scalar versions of ramps,
sums and smoothers are modelled); GUI and plugin front-ends; audio codecs; the file system; memory allocation failure;
weak memory ordering (atomics are sequentially consistent, which is the default of `std::atomic`); moves of entries
inside hash maps; hash collisions where keys are compared by hash (opcode names, C11). Random numbers are any number
in their range. `std::exp`, `sqrt` and logarithms are parameters with the monotonicity that is used. Per area, the
head of the model file lists what is left out.

## 5. Findings

Each has a witness that is computed in the named theorem.

OSC messages (C01, C03): a double argument is converted to float and back. A blob length above 2^32-4 wraps in the
padding, and a message of more than 2^29 bytes can wrap the argument count.

Base64 (C04): white space is refused after the padding, skipped elsewhere.

Parser (C05-C07): `#define $A $A` makes the expansion loop forever. Byte 255 in a text in memory is taken for its end.
A value that contains ` name=` is split into two opcodes.

Opcodes (C09-C12, C56): a number beyond 64 bits gives the default, not the bound. The empty note name reads out of
the string; octaves can overflow `int`. Opcode numbers of 65536 and more are truncated or dropped. A NUL byte in a
name makes cleaning not idempotent. The category of a name with blanks around it is computed before trimming.

MIDI state (C14, C15): between two events the value at a delay is that of the next event. Repeated note-ons and stray
note-offs falsify the number of active notes.

Layers (C16-C18, C44, C50, C51): extended controllers set by notes do not update the regions. The round-robin counter
overflows after 2^31-1 events. Delayed releases are lost above the capacity of the list, are kept by Reset All
Controllers, and are mishandled by the sostenuto pedal. Several keyswitches together and choked keys confuse the
switches. Reset All Controllers recentres the pitch wheel without telling the regions. Tempo conditions see the
reciprocal of the tempo, and only at load.

Voices (C19-C23, C45): a region with end=0 keeps a voice that is in no list. A limit of 0 acts as 1; with the envelope
stealer it takes `front()` of an empty vector. Self-masking and starts by controllers escape note polyphony. The head
of a sister ring can be stolen by its own event. A second strike of the same key and release voices are not choked; a
release region started by choking chokes further groups. All sound off leaves delayed releases behind.

Buffer pool (C24): moving into a live handle leaks its buffer; changing the size with live handles leases twice.

File pool (C26): shrinking the preload size can uncover offsets; offset plus preload size wraps in 32 bits; loading in
memory drops the last frame and forgets the offset. Seen but not modelled: `flat_hash_map` may move `FileData` under
its holders; the move does not copy `fullyLoaded`; `FileDataHolder` leaks on move assignment; `setPreloadSize` is not
synchronised with the loaders.

Vectors (C80): divide, multiplyAdd and multiplyMul with vectors test the alignment of the input and the output only, and
trap when the third pointer is not aligned like the output (off by default). The vector clamp turns NaN into the lower
bound, the plain one keeps it. The multiplicative ramp with vectors (C81, on by default) divides its start value by the
factor and multiplies it again, so that the first output may differ from the start value in the last place.

Readers (C79): a file cut short is silent backwards when its format seeks fast, while the part read before playing holds
its end forwards. Loading a file of more than two channels from memory dereferences an empty optional.

Modulation (C29, C58, C59): the targets of one LFO share one depth; numbers are cut to 8 bits; a source that depends
on one registered before it is advanced twice. Seen: reconnecting without depth keeps a stale depth; a cycle through a
depth reads the buffer of the block before; a negative depth loses the steps; `eg&_freq_lfo&` is off by one.

Envelopes (C33, C34): a dynamic envelope with a delay beyond one chunk never starts; a release cancelled during the
delay cannot be given again; values below 0 occur with a sustain near 0; cuts at the end of the delay or near the
sustain level change the output.

Curves, smoothers, follower (C35, C42, C48): rounding can overshoot a neighbour by one unit, depend on the block
boundaries, or leave the smoother short of its target for ever.

Controller envelopes and crossfades (C36, C39): the quantised form can leave a level before its delay; the gain of a
fade-in goes up to 2 within the last 1/127 of its range.

Beat clock (C37): a query of the whole block before an event changes the times; events set through `Synth` count from
the previous cycle and let the clock run ahead.

LFO (C38, C62): a small negative phase wraps to exactly 1, which reads one past the steps; when a delay ends inside a
block the modulation and the beat clock are read from the start of the block. Seen: `LFO::configure` dereferences its
argument before the test for null.

Playback (C40, C41): the age is zero again after the first block, so that the second repeats a frame; a delayed voice
skips its first frame; a loop count reached at the first frame of a block is missed; the last frame but one ends the
voice; `count` with a start after the end reads outside; a loop count with crossfade reads before the buffer when a
controller moved the end.

Metadata (C43, C63): with a 32 bit `long` the scan may not end; a chunk length of 2^32-1 is padded to 0; a FLAC block
below 12 bytes accepts any chunk length; AIFF markers without a name divide by zero or fail; the end of a loop wraps
for a file without frames.

Loading (C64, C66, C67): an opcode refused in one region is remembered as unknown by name and then skipped in all later
regions, even if these would accept it. With a note offset, what falls off the keyboard piles up on its first or last
key; `sw_lolast` and `sw_hilast` are not moved; a default switch moved above 127 makes the next note read beyond the
128 keyswitch lists. A region removed for its missing sample stays in the keyswitch lists. An unreadable `sw_down` after
`sw_last` lets the region sound without its switch. Seen: twelve times an octave offset may overflow `int`.

Sample positions (C68, C69): a negative `offset_oncc` is added to the preload size as if its controller were at the
maximum, so that the start of a note is not preloaded; the numbers of `delay_oncc`, `offset_oncc`, `end_oncc`,
`loop_start_oncc` and `loop_end_oncc` may be 512, one beyond the table of controllers; `loop_start=0` gives way to the
loop of the file; an empty loop undoes `one_shot`; a loop beyond the end of the file repeats the last frame.

Pedals (C52): `Voice::registerCC` follows the sustain pedal only if `sostenuto_sw` is on and the sostenuto pedal only if
`sustain_sw` is on. With `sostenuto_sw=off` a note struck with the sustain pedal down is never released, and one struck
before the pedal is not held.

Stealing (C73): the age of a voice is brought back to zero at the end of its first block (`min` where `max` is meant), so
notes of one block are equally old; `envelope_and_age` with a limit of zero reads the front of an empty list.

Flex envelopes (C71, C72): a free-running one leaves its sustained stage only between two blocks; a point whose time
becomes negative through a controller is skipped without its level being taken; a release during the delay counts its
frames from the end of the delay; taking back the release of an envelope that has ended brings back its last level.

Values (C75, C76): `kFillGap` is given for `hibend` but `normalizeInput` uses it for 7-bit values only, so between
`hibend=b` and `lobend=b+1` there is a gap; a number followed by a letter e is not read at all, and `1E3` is 1.

Parsing twice (C84): `_originalDirectory` survives a parse, and a relative path of the next file is taken relative to it. Two calls of
`loadSfzString` with the path `a/b.sfz` look for samples and includes in `a` and then in `a/a`.

Sine cardinal interpolation (C85): `WindowedSinc::getUnchecked` cuts `(tableSize - 1) / points` to an integer while the
table is filled with the exact quotient, so every read is a little off (by less than 1/60 frame), even at a frame.
`calculateTable` writes its extra entries to `table[extra + i]` instead of `table[tableSize + i]`: entries 4 to 7 are
wrong and the extra ones stay uninitialised (they are never read).

The start of a note (C89): a negative amp_veltrack, however small, makes a region almost silent, since the gain is |veltrack|(1 - v²)
below 0 and 1 - veltrack(1 - v²) from 0 on. With more than 100 % (the bounds of the opcode are permissive and controllers add to it
without a clamp) soft notes get a negative gain.

Scala files (C90): a line with a full stop anywhere is taken as cents, so `3/2 perf. fifth` is 3 cents (the format allows any text behind
a value). `-3/2` is accepted and has no logarithm. In files with CR LF line ends an empty line between notes is an error. The tuning
frequency may be set to 0, whose logarithm is then taken; root keys have no upper bound.

Stretch tuning (C91): the curve of the knob position 0.5 deviates more than that of 1.0 at both ends of the keyboard. Negative keys are
extrapolated with the wrong sign of the fraction.

Panning (C86): half way between two entries of the table both channels are rounded up, and the sum of the squares is
less than 1 (at pan -50 for instance). The NEON code scales by the size of the table instead of its last index; a
sound in the middle is louder at the right there.

Messages (C88): `checkCC` lets controller 512 through, one behind the arrays: `/cc512/value` with a float writes there.
`getVoice` compares the number as a signed one, so `/voice2147483648/...` reads outside the voices; with more than 256
voices asked for, numbers from 256 on do so too. `/region0/eg0/point4294967295` names the implicit first point.
`add_filter` and `add_eq` take the number of flexible envelopes for that of filters, so that voices use filters they do
not have. `_cc` messages enter controllers of any number into the maps of a region, which are read without a check
when a note starts.

Opcodes of regions (C92): a number of 2^32 or more in a name is dropped by the scan, after which `parameters.front()` of
`lfo4294967296_freq` is the front of an empty vector. Seven maps (`delay_oncc&`, `offset_oncc&`, `end_oncc&`, …) take the controller 512,
whose value is then read behind the array of events. `eg&_freq_lfo&` checks the number against the list before subtracting
1, and `eg1_freq_lfo1` connects to an LFO that is not there. `fileg_*` and `fillfo_*` connect to filter 1 of a region without filters.
`eg257_ampeg` makes envelope 1 the one of the amplitude.

Modulations (C93): the target of filter 257 is that of filter 1. The key of the depth of an LFO or envelope contains the target but
not the number of the LFO, so `lfo1_pitch_oncc1` and `lfo2_pitch_oncc2` both change the depth of both LFOs.

Members (C94): `start_hihdcc&` enters a condition for its controller but does not set `triggerOnCC`, so a region with this opcode
alone never starts, unlike with `start_locc&`, `start_hicc&` or `start_lohdcc&`.

Buffers (C95): a size less than 30 below 2^64 wraps; the resize succeeds and the buffer has no data. `alignedEnd` adds the alignment in
elements rather than bytes, and is wrong for elements larger than the alignment (only tests use it). The reported number of bytes is an
`int`, negative from 2^31 bytes on.

Controller modulations (C96): smoothers are kept per source key, not per voice, so a smoothed velocity (or random value, …) of one voice is
reset by the start of the next voice of the region and moved by its blocks (`C96_voices_refuted`). Controller 130 is missing from
`ccModulationIsPerVoice`: its source is global, and all voices read the key pressure of the voice rendered first (`C96_poly_refuted`).
`init` applies the curve to controllers 128, 129, 140 and 141, which `generate` does not (`C96_start_refuted`). `setSampleRate` leaves the
step of a glide (`C96_rate_refuted`).

Oscillators (C97): the message `/region&/oscillator_phase` stores any non-negative number without `wrapPhase`, unlike the opcode; a phase
of 1 or more reads the next tables and one of 25 or more reads behind the storage (`C97_message_refuted`). The phase can round to
exactly 1 (`C97_phase_one_refuted`), where the padding makes the lookup right although the index is the size of the span.

Band limits (C98): the linear interpolation of the table of logarithms is too low between its cells, so a frequency just above the start
of a table plays the table below (at 61 Hz a partial above the 24255 Hz of the reference rate). The table is chosen by the frequency without
the detune ratio: an octave of `oscillator_detune` gives audible aliases at every frequency from 36 to 3000 Hz.

Setup (C99): `setMaxFiltersPerVoice` and `setMaxEQsPerVoice` create filters at the default 48000 Hz and do not pass the sample rate on, unlike
the setters of LFOs and envelopes. A host that sets 96000 Hz and then loads a file hears every cutoff an octave too high until it sets the rate
again (`C99_filters_refuted`); `setNumVoices` has the same effect. New voices of `setNumVoices` do not measure their power, so
`hint_stealing=envelope_and_age` silently steals the oldest (`C99_follow_refuted`).

FilterUnion (C100): `FilterHolder::setSampleRate` clears the filter but leaves `prepared`, so the coefficients of a playing note move from
zero to their settings (`C100_rerate_refuted`). Modulated settings are read at multiples of 16 frames of each block, so that the block size
changes the sound (`C100_split_refuted`). The frequency of an equalizer with its modulations is not limited, unlike the cutoff of a filter
(`C100_frequency_refuted`). Not modelled: `description` of a holder is not initialised before the first `setup`.

Effects (C101): with linked channels the compressor and the gate add `right2x[1]` instead of `right2x[i]` to the input of the gain
(`Compressor.cpp` 127, `Gate.cpp` 130), so that the gain hears only the first frame of the right channel in each block
(`C101_linked_deaf`) and the block size changes the sound (`C101_split_refuted`). `clear` of compressor, gate and limiter leaves the
oversamplers as they are, so that sound is left after all sound off (`C101_clear_refuted`). The distortion asks for different buffers
but gets the same ones unless it is the first effect of its bus; then `disto_wet` has no effect (`C101_disto_wet_lost`,
`C101_disto_refuted`). The opcode `width` of the width effect is read as a fraction and used as percents, so that every written width
gives nearly mono (`C101_width_refuted`).

Limiter (C102): right after it is cleared its kernel lets samples above full scale through, up to nearly twice
(`C102_limiter_refuted`), as the level is smoothed more slowly than the gain.

Unknown opcodes (C103): a region without LFOs that names `eg1_freq_lfo3` makes the opcode be ignored in every later region, also where it
is valid (`C103_regions_refuted`, with the whole parser of regions, where C64 used a small one). `fil1_veltrack_oncc600` is refused, but only
after the filter was made: of two regions with the same opcodes the first has a filter and the second none (`C103_twins_refuted`).

Importing (C104): the text for an audio file is `<region>sample=` and the name of the file, so a file called `take 1 volume=-60.wav` loads the sample
`take 1` at another volume (`C104_audio_refuted`). `rootNote` becomes `key`, which also sets the range; it is written before `loNote` and `hiNote` of the
same element, but not of an outer one, so a range on the group is lost when its samples have root notes (`C104_keys_refuted`). Read in the code and not
proved: `volume` without a unit becomes `amplitude`, which is in percent, without a factor of 100 (while `sustain` has one), and `tuning`, which may have a
fraction, becomes `transpose`, which is read as a whole number.

Lofi (C105): a sample is taken if the phase is greater than 1, but the whole part is removed from the phase also when it is exactly 1
(`Lofi.cpp` 192-194). In exact numbers a step of 1/2 from phase 0 therefore never takes a sample and the effect is silent (`C105_never_refuted`).

The kernel checker of the gate does not use the virtual machine, so closed computations are kept small: the cases of C101 and C102 use short filters or
one frame, those of C103 a few opcodes.

## 6. Mutation

Each line of `seeded/LOG.jsonl` is one wrong program: a definition of a model changed in a scratch copy, with the
theorems that failed. Where nothing failed, the line says whether the change is equivalent, outside the claims, or
which theorem was tightened.
