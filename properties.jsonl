{"id": "C01", "title": "OSC message round trip", "statement": "If sfizz_prepare_message serialises a path, a type signature and a matching argument list into a large enough buffer, then sfizz_extract_message on those bytes returns the same path, the same signature and the same arguments, and consumes exactly the number of bytes written. The only tag that is excepted is 'd', whose argument survives only if it is representable as a float.", "quantifier": "every NUL-free path, every signature over the supported tags, every argument list of any length, every blob up to the 32-bit size limit", "why_tests_cant": "the message space is unbounded (string lengths, number of arguments, blob lengths, all four padding residues in every combination)", "anchors": ["src/sfizz/Messaging.cpp: sfizz_prepare_message, sfizz_extract_message, OSCWriter, OSCReader"]}
{"id": "C02", "title": "OSC size query and capacity respect", "statement": "sfizz_prepare_message returns the size the message needs whatever the capacity (including 0), the size is a multiple of 4, it never writes past the capacity given, and what it writes is a prefix of the full message.", "quantifier": "every path, signature, argument list and capacity", "why_tests_cant": "every capacity must be checked against every message; tests sample a few", "anchors": ["src/sfizz/Messaging.cpp: OSCWriter::appendBytes, sfizz_prepare_message"]}
{"id": "C03", "title": "OSC extraction is memory safe on hostile input", "statement": "sfizz_extract_message never reads a byte outside the buffer it is given and every string or blob it returns lies inside that buffer; it reports at most the buffer size as consumed.", "quantifier": "every byte buffer, every claimed size, every argument space", "why_tests_cant": "it is a statement about all malformed inputs", "anchors": ["src/sfizz/Messaging.cpp: sfizz_extract_message, OSCReader::extractBlob"]}
{"id": "C04", "title": "Base64 decoding inverts encoding", "statement": "Decoding the standard encoding of any byte string, with ASCII white space inserted anywhere before the padding and with or without '=' padding, returns that byte string; input with a character outside the alphabet is rejected.", "quantifier": "every byte string and every placement of white space", "why_tests_cant": "unbounded inputs, three length residues, arbitrary white space placement", "anchors": ["src/sfizz/utility/Base64.h: decodeBase64"]}
{"id": "C05", "title": "Variable expansion always terminates", "statement": "Loading any SFZ text terminates: expanding $variables in an opcode, header or include path reaches a text without defined variables.", "quantifier": "every set of #define lines and every text", "why_tests_cant": "non-termination of one input among infinitely many; a test can only hang", "anchors": ["src/sfizz/parser/Parser.cpp: Parser::expandDollarVars"]}
{"id": "C06", "title": "Source positions are exact", "statement": "The line and column reported for any construct equal the position obtained by scanning the text from the start, whatever the mix of look-ahead, push-back and CR/LF conventions used to get there.", "quantifier": "every text and every sequence of get / put-back / skip operations", "why_tests_cant": "all interleavings of look-ahead and push-back over all texts", "anchors": ["src/sfizz/parser/ParserPrivate.cpp: Reader::getChar, Reader::putBackChar, updateSourceLocationAdding"]}
{"id": "C07", "title": "SFZ text round trip", "statement": "Printing any list of headers with opcodes (identifiers and values without reserved sequences) as SFZ text and parsing the text reports exactly these headers with exactly these opcodes in order.", "quantifier": "every list of blocks, every list of opcodes per block", "why_tests_cant": "unbounded grammar", "anchors": ["src/sfizz/parser/Parser.cpp: Parser::processOpcode, processHeader, flushCurrentHeader, extractOpcodeValue"]}
{"id": "C08", "title": "Includes cannot recurse without bound", "statement": "Whatever the include graph, including cycles, the parser never has more than the configured number of files open on its include stack, and reports an error when the limit is hit.", "quantifier": "every file system content and every include graph", "why_tests_cant": "all include graphs including cyclic ones", "anchors": ["src/sfizz/parser/Parser.cpp: Parser::includeNewFile, processTopLevel"]}
{"id": "C09", "title": "Integer opcode values respect their bounds", "statement": "Reading an integer opcode never yields a value outside the bounds of its specification when these are enforced, never yields a value outside the C++ type in any mode, and yields the literal number when it is within bounds.", "quantifier": "every opcode specification, every value text", "why_tests_cant": "all texts including 64-bit overflows", "anchors": ["src/sfizz/Opcode.cpp: transformInt_, readInt_, Opcode::read"]}
{"id": "C10", "title": "Note names denote the right MIDI keys", "statement": "Every note name made of a letter, an optional legal accidental and an octave is read as 12*(octave+1)+pitch class when this is a MIDI key, every other name is rejected, and each of the 128 keys has a name that reads back as itself.", "quantifier": "every text given as key value", "why_tests_cant": "all texts, including extreme octaves and malformed accidentals", "anchors": ["src/sfizz/Opcode.cpp: readNoteValue, readNoteValue_"]}
{"id": "C11", "title": "Numbered opcodes address the number that was written", "statement": "An opcode name with embedded numbers, such as locc74 or eq3_gain, is understood with exactly these numbers; two names that differ in a number never address the same parameter.", "quantifier": "every opcode name", "why_tests_cant": "all names with digit runs of any length", "anchors": ["src/sfizz/Opcode.cpp: Opcode::Opcode (name digit extraction)"]}
{"id": "C12", "title": "Opcode alias clean-up is idempotent and total", "statement": "Normalising an opcode name always terminates, and normalising an already normalised name changes nothing.", "quantifier": "every opcode name and both scopes", "why_tests_cant": "all names; the rules rewrite into each other", "anchors": ["src/sfizz/OpcodeCleanup.re: cleanUpOpcodeName"]}
{"id": "C13", "title": "Controller event lists stay ordered", "statement": "After any sequence of controller, pitch bend, aftertouch and note events and block flushes, each event list is non-empty, starts at delay 0 and has strictly increasing delays; a later event for the same delay replaces the earlier one and touches no other.", "quantifier": "every history of events and flushes", "why_tests_cant": "all interleavings of delays within and across blocks", "anchors": ["src/sfizz/MidiState.cpp: insertEventInVector, flushEvents, ccEvent, pitchBendEvent"]}
{"id": "C14", "title": "Controller value seen at a point in time", "statement": "The value of a controller queried at a delay inside the block is the value of the most recent event at or before that delay.", "quantifier": "every event history and every query delay", "why_tests_cant": "all event placements around the queried delay", "anchors": ["src/sfizz/MidiState.cpp: getCCValueAt, getCCValue"]}
{"id": "C15", "title": "Number of active notes", "statement": "The number of active notes equals the number of keys that are currently down.", "quantifier": "every history of note-on, note-off and all-notes-off", "why_tests_cant": "histories with repeated note-ons and stray note-offs", "anchors": ["src/sfizz/MidiState.cpp: noteOnEvent, noteOffEvent, allNotesOff"]}
{"id": "C16", "title": "A region responds to the current controllers", "statement": "For a region with any number of locc/hicc conditions, after any history of controller events the region is CC-switched on exactly when every condition holds for the last value received of its controller.", "quantifier": "every set of conditions and every controller history", "why_tests_cant": "all histories; the code keeps an incrementally updated switch set", "anchors": ["src/sfizz/Layer.cpp: Layer::updateCCState, Layer::isSwitchedOn"]}
{"id": "C17", "title": "Round robin fires every n-th time", "statement": "A region with seq_length n and seq_position k starts on exactly the k-th, (k+n)-th, (k+2n)-th ... of the note events that reach its sequence counter, whatever happens in between.", "quantifier": "every n, every k, every history", "why_tests_cant": "unbounded histories", "anchors": ["src/sfizz/Layer.cpp: Layer::registerNoteOn"]}
{"id": "C18", "title": "Sustained notes are released exactly once", "statement": "A note-off received while the sustain pedal is down is remembered, and when the pedal goes up each remembered key gets exactly one note-off; nothing is released while the pedal is down and no remembered note-off is lost.", "quantifier": "every history of notes and pedal movements, every key range", "why_tests_cant": "all interleavings of notes and pedal", "anchors": ["src/sfizz/Layer.cpp: Layer::registerNoteOff, delaySustainRelease, storeSostenutoNotes; src/sfizz/Synth.cpp: ccDispatch"]}
{"id": "C19", "title": "Active voice bookkeeping", "statement": "After any history of voice starts, ends and stealing, the list of active voices contains exactly the voices that are not idle, each once, and the per-region-set and per-polyphony-group lists contain exactly the active voices whose region belongs to them.", "quantifier": "every history of voice state changes", "why_tests_cant": "all histories", "anchors": ["src/sfizz/VoiceManager.cpp: onVoiceStateChanging; src/sfizz/RegionSet.cpp; src/sfizz/PolyphonyGroup.cpp"]}
{"id": "C20", "title": "Polyphony limits hold", "statement": "After every note-on the number of voices that are playing and not being faded out is at most the limit, for each of: the note polyphony of a key, the region polyphony, the group polyphony, the enclosing set polyphonies and the engine polyphony.", "quantifier": "every instrument with limits of at least one, every history of note events", "why_tests_cant": "all histories; five interacting limits", "anchors": ["src/sfizz/VoiceManager.cpp: checkPolyphony, checkNotePolyphony, checkRegionPolyphony, checkGroupPolyphony, checkSetPolyphony, checkEnginePolyphony"]}
{"id": "C21", "title": "Sister rings are well formed", "statement": "The voices started by one event form one circular doubly linked ring; adding voices and resetting any voice keep all rings disjoint and consistent, and walking a ring always terminates even when voices are removed during the walk.", "quantifier": "every number of voices and every order of additions and removals", "why_tests_cant": "pointer structure under all histories", "anchors": ["src/sfizz/SisterVoiceRing.h; src/sfizz/Voice.cpp: Voice::removeVoiceFromRing, Voice::reset"]}
{"id": "C22", "title": "Choking always terminates", "statement": "The off_by mechanism, which can start release samples that in turn choke other groups, always terminates for every instrument, including cyclic off_by relations.", "quantifier": "every instrument (off_by graph) and every voice population", "why_tests_cant": "all graphs; recursion between note-off dispatch and group choking", "anchors": ["src/sfizz/Synth.cpp: checkOffGroups, noteOffDispatch, startVoice; src/sfizz/Voice.cpp: checkOffGroup"]}
{"id": "C23", "title": "Choking silences exactly the group", "statement": "When a region of group g starts, every voice whose off_by is g (and that is not exempt because it belongs to the same note event) is turned off, and no other voice is.", "quantifier": "every voice population", "why_tests_cant": "all populations", "anchors": ["src/sfizz/Voice.cpp: Voice::checkOffGroup; src/sfizz/Synth.cpp: checkOffGroups"]}
{"id": "C24", "title": "Buffer pool never leases a buffer twice", "statement": "Two live buffer handles never refer to the same buffer; a buffer becomes available again exactly when its handle dies.", "quantifier": "every sequence of acquire, move and release operations", "why_tests_cant": "all histories", "anchors": ["src/sfizz/BufferPool.h: SpanHolder, BufferPool"]}
{"id": "C25", "title": "Sample data is never freed under a reader", "statement": "While a voice holds a handle on a sample file and plays from its streamed data, the background collector never frees that data, under every interleaving of the loader threads, the collector and the audio thread.", "quantifier": "every number of readers, every schedule", "why_tests_cant": "schedules cannot be enumerated", "anchors": ["src/sfizz/FilePool.cpp: triggerGarbageCollection, loadingJob; src/sfizz/FilePool.h: FileDataHolder, FileData::getData"]}
{"id": "C26", "title": "Preloaded data covers every start offset", "statement": "After any sequence of preload requests and preload size changes, the preloaded part of each file covers, for each request made, the requested offset plus the preload size (or the whole file).", "quantifier": "every sequence of requests and sizes", "why_tests_cant": "all histories of requests", "anchors": ["src/sfizz/FilePool.cpp: preloadFile, setPreloadSize"]}
{"id": "C27", "title": "Modulation registry is a faithful map", "statement": "Registering a source or target twice gives the same identifier, different keys get different identifiers, a lookup finds exactly what has been registered, and connections refer only to registered sources and targets.", "quantifier": "every sequence of registrations and connections", "why_tests_cant": "all histories", "anchors": ["src/sfizz/modulations/ModMatrix.cpp: registerSource, registerTarget, findSource, findTarget, connect"]}
{"id": "C28", "title": "Modulation evaluation terminates on cycles", "statement": "Evaluating a modulation target terminates for every modulation graph, including graphs where source depths are themselves modulated in a cycle, and each target is computed at most once per block.", "quantifier": "every modulation graph", "why_tests_cant": "all graphs", "anchors": ["src/sfizz/modulations/ModMatrix.cpp: getModulation"]}
{"id": "C29", "title": "Modulation depths are independent", "statement": "Two different (source, target) pairs whose depth is modulated by controllers use different depth targets: modulating the depth of one LFO never changes the depth of another.", "quantifier": "every pair of sources and targets", "why_tests_cant": "all combinations of identifiers and indices", "anchors": ["src/sfizz/modulations/ModKey.cpp: getSourceDepthKey"]}
{"id": "C30", "title": "Controller maps behave as maps", "statement": "A controller map returns for each controller the last value assigned to it or the default, keeps controllers sorted and unique, and iterates over exactly the assigned ones.", "quantifier": "every sequence of accesses", "why_tests_cant": "all histories", "anchors": ["src/sfizz/CCMap.h"]}
{"id": "C31", "title": "Unordered removal removes exactly what it should", "statement": "swapAndPopAll removes all and only the elements that satisfy the condition, keeps the multiset of the others, runs the action once on each removed element and returns their number; swapAndPopFirst removes exactly one such element if there is one.", "quantifier": "every vector and every predicate", "why_tests_cant": "all inputs", "anchors": ["src/sfizz/utility/SwapAndPop.h"]}
{"id": "C32", "title": "Bit sets behave as sets", "statement": "A bit array behaves as a finite set under set, reset, flip and test; all() and any() agree with membership.", "quantifier": "every size and every sequence of operations", "why_tests_cant": "all sizes (partial last byte) and histories", "anchors": ["src/sfizz/utility/bit_array/BitArray.h"]}
{"id": "C33", "title": "Envelopes stay in range and end", "statement": "For all non-negative envelope times and a sustain level in [0,1], every value of the amplitude envelope lies in [0,1]; each call fills the whole block; the phases occur in order; and once released the envelope reaches silence after finitely many blocks.", "quantifier": "every parameter set, every block segmentation, every release time", "why_tests_cant": "continuous parameters and unbounded block sequences", "anchors": ["src/sfizz/ADSREnvelope.cpp: getBlockInternal, startRelease"]}
{"id": "C34", "title": "Envelope output does not depend on block boundaries", "statement": "Rendering an envelope in blocks of any sizes gives the same samples as rendering it in one block, with the release at the same absolute time.", "quantifier": "every parameter set and every segmentation", "why_tests_cant": "all segmentations", "anchors": ["src/sfizz/ADSREnvelope.cpp: getBlockInternal"]}
{"id": "C35", "title": "Curves interpolate their points", "statement": "A curve takes at each defined point its defined value, stays between the values of the neighbouring points in between, and is 0 at 0 and 1 at 127 unless defined otherwise; evaluation never reads outside the table.", "quantifier": "every set of points and every argument", "why_tests_cant": "all curves and all arguments", "anchors": ["src/sfizz/Curve.cpp: Curve::fill, lerpFill, evalCC7"]}
{"id": "C36", "title": "Controller automation covers the block", "statement": "Turning a list of timed events into a control signal writes every sample of the block exactly once, reaches each event value at its delay, and stays between the smallest and the largest event value.", "quantifier": "every event list and every block length", "why_tests_cant": "all event placements", "anchors": ["src/sfizz/ModifierHelpers.h: linearEnvelope, multiplicativeEnvelope"]}
{"id": "C37", "title": "Beat clock is independent of query times", "statement": "The running beat time of a block is the same whether the clock is queried once at the end or at any sequence of increasing delays inside the block.", "quantifier": "every tempo/signature/position history and every query pattern", "why_tests_cant": "all query patterns", "anchors": ["src/sfizz/BeatClock.cpp: fillBufferUpTo, setTempo, setTimeSignature, setTimePosition"]}
{"id": "C38", "title": "Phase wrapping stays inside the period", "statement": "Wrapping any phase gives a value in [0,1), so that table indices computed from it are in range.", "quantifier": "every finite phase", "why_tests_cant": "all floating point values, including rounding at the boundary", "anchors": ["src/sfizz/MathHelpers.h: wrapPhase; src/sfizz/LFO.cpp: processSteps"]}
{"id": "C39", "title": "Crossfades never amplify", "statement": "The gain of a velocity, key or controller crossfade lies in [0,1], is 0 before a fade-in and 1 after it, and is monotone.", "quantifier": "every range and every value, including high-resolution values", "why_tests_cant": "continuous values", "anchors": ["src/sfizz/SfzHelpers.h: crossfadeIn, crossfadeOut"]}
{"id": "C40", "title": "Looped playback stays inside the sample", "statement": "For every sample length, loop and playback rate, the frame index used by a looping voice lies inside the loop or before it, and the frames read by interpolation are inside the sample data or its padding.", "quantifier": "every loop, rate and block sequence", "why_tests_cant": "all positions and rates", "anchors": ["src/sfizz/Voice.cpp: fillWithData"]}
{"id": "C41", "title": "Playback position advances by time only", "statement": "The sample positions a voice visits do not depend on how the rendering is divided in blocks.", "quantifier": "every segmentation in blocks", "why_tests_cant": "all segmentations", "anchors": ["src/sfizz/Voice.cpp: renderBlock, fillWithData"]}
{"id": "C42", "title": "Power follower is independent of block boundaries", "statement": "The tracked power after a signal does not depend on how the signal is cut into blocks, and is never negative.", "quantifier": "every signal and every segmentation", "why_tests_cant": "all segmentations", "anchors": ["src/sfizz/PowerFollower.cpp: process"]}
{"id": "C43", "title": "Metadata scanning terminates inside the file", "statement": "Scanning the chunks of any RIFF, AIFF or FLAC file terminates, and reading a chunk never delivers bytes outside the file nor more than the chunk length.", "quantifier": "every file content", "why_tests_cant": "all malformed files", "anchors": ["src/sfizz/FileMetadata.cpp: openRiff, openAiff, openFlac, readRiffData, MemoryMetadataReader"]}
{"id": "C44", "title": "Keyswitches select the right regions", "statement": "With sw_last, sw_down, sw_up and sw_previous conditions, after any history of keys a region is key-switched on exactly when the conditions hold for the keys currently held and the last keyswitch pressed.", "quantifier": "every instrument and every history of keys", "why_tests_cant": "all histories", "anchors": ["src/sfizz/Layer.cpp: registerNoteOn, registerNoteOff; src/sfizz/Synth.cpp: noteOnDispatch, noteOffDispatch, setCurrentSwitch"]}
{"id": "C45", "title": "All sound off silences everything", "statement": "After all-sound-off no voice is active, no ring, group or set refers to a voice.", "quantifier": "every state", "why_tests_cant": "all states", "anchors": ["src/sfizz/Synth.cpp: allSoundOff; src/sfizz/VoiceManager.cpp: reset"]}
{"id": "C46", "title": "Identifier lookup", "statement": "Looking a region or voice up by identifier returns the one with that identifier if it exists and nothing otherwise, even after some have been removed.", "quantifier": "every set of identifiers with gaps", "why_tests_cant": "all sets", "anchors": ["src/sfizz/Synth.cpp: getLayerById; src/sfizz/VoiceManager.cpp: getVoiceById"]}
{"id": "C47", "title": "Ranges are ordered", "statement": "Whatever lo/hi opcodes are given in whatever order, the range kept has start <= end and membership means start <= x <= end.", "quantifier": "every sequence of setStart/setEnd/expand/shrink", "why_tests_cant": "all histories", "anchors": ["src/sfizz/Range.h"]}
{"id": "C48", "title": "Smoothed controls do not overshoot", "statement": "A linear smoother stays between its current and its target value and reaches the target after its smoothing time.", "quantifier": "every input sequence", "why_tests_cant": "all inputs", "anchors": ["src/sfizz/Smoothers.cpp: LinearSmoother"]}
{"id": "C49", "title": "Note duration is the time since the note-on", "statement": "The duration reported for a key, at a delay within the current block, is the number of samples rendered since its last note-on, plus the delay, minus the delay of the note-on (modulo 2^32), whatever other events, flushes and other keys' notes happened in between.", "quantifier": "every history of MIDI state calls, every key, every delay", "why_tests_cant": "the clock, block flushes and other notes interleave in unboundedly many ways, and the clock wraps at 2^32", "anchors": ["src/sfizz/MidiState.cpp:82", "src/sfizz/MidiState.cpp:125"]}
{"id": "C50", "title": "Pitch, program and aftertouch conditions follow the last message", "statement": "After any history, a region's lobend/hibend, loprog/hiprog and lochanaft/hichanaft conditions are met in the engine's eyes exactly when the last pitch bend, program change and channel aftertouch message lie within the ranges, and a reset of the controllers re-evaluates them.", "quantifier": "every instrument, every history of calls", "why_tests_cant": "all histories", "anchors": ["src/sfizz/Layer.cpp: registerPitchWheel, registerProgramChange, registerAftertouch; src/sfizz/Synth.cpp: resetAllControllers"]}
{"id": "C51", "title": "Tempo conditions follow the tempo", "statement": "A region with lobpm/hibpm plays exactly when the current tempo in beats per minute is in the range.", "quantifier": "every tempo and every history of tempo changes", "why_tests_cant": "the tempo is a real number", "anchors": ["src/sfizz/Layer.cpp: registerTempo; src/sfizz/Synth.cpp: finalizeSfzLoad, tempo"]}
{"id": "C52", "title": "Pedals hold a note exactly as long as they should", "statement": "A sounding note started by a key is released at the first moment at which its key is up, the sustain pedal is up, and the sostenuto pedal does not hold it (it holds the notes that sounded when it went down), and not before; with sustain cancels release, pressing the sustain pedal takes the release back; a one-shot note is not released by keys or pedals.", "quantifier": "every sequence of note-offs and controller values, every threshold, every state of the pedals at the start", "why_tests_cant": "all sequences of keys and pedals", "anchors": ["src/sfizz/Voice.cpp: startVoice, registerNoteOff, registerCC, release"]}
{"id": "C53", "title": "A start always gets a voice", "statement": "With between 1 and 256 voices configured, whatever was played before, starting a region always finds a voice to play it (after the polyphony checks have turned voices off).", "quantifier": "every instrument, every history of calls, every start", "why_tests_cant": "depends on the interplay of all polyphony limits and the spare voices over all histories", "anchors": ["src/sfizz/VoiceManager.cpp:145", "src/sfizz/VoiceManager.cpp:154", "src/sfizz/VoiceManager.cpp:175", "src/sfizz/Synth.cpp:1300"]}
{"id": "C54", "title": "Blocks are complete", "statement": "For every text, the full blocks reported to the listener are exactly the reported headers, each with the opcodes reported after it and before the next header, in order, across included files; nothing is lost, repeated or moved, and opcodes before the first header are in no block.", "quantifier": "every text, file system, setting and set of definitions", "why_tests_cant": "unbounded texts and include graphs", "anchors": ["src/sfizz/parser/Parser.cpp:218", "src/sfizz/parser/Parser.cpp:257", "src/sfizz/parser/Parser.cpp:401"]}
{"id": "C55", "title": "Loading ends whatever the include graph", "statement": "When no definition leads back to itself, parsing returns for every text and every set of files, even when files include themselves or each other and the include guard is off.", "quantifier": "every file system content, every include graph, every include depth setting", "why_tests_cant": "non-termination; all cyclic include graphs", "anchors": ["src/sfizz/parser/Parser.cpp:113", "src/sfizz/parser/Parser.cpp:68", "src/sfizz/parser/Parser.cpp:504"]}
{"id": "C56", "title": "Derived opcode names belong to the category asked for", "statement": "Converting an opcode name between the categories oncc, curvecc, stepcc and smoothcc exchanges its suffix and keeps its number (or takes the one given); the new name is recognised as being of the new category. Converting an ordinary name appends suffix and number, and the new opcode has the old numbers followed by the new one.", "quantifier": "every opcode name and every pair of categories", "why_tests_cant": "all names", "anchors": ["src/sfizz/Opcode.cpp: getDerivedName, identifyCategory, extractBackInteger"]}
{"id": "C57", "title": "Aliases are replaced by the names they stand for", "statement": "In region scope every alias of the table (SFZ1 controller forms, vel2, unnumbered filter and LFO opcodes, loop, off, bend, gain, tune, on_, realcc, ...) is replaced by the name it stands for, with its numbers and tail unchanged; a name that ends with _cc and a number is treated like the one with _oncc.", "quantifier": "every number and every tail", "why_tests_cant": "all numbers and tails", "anchors": ["src/sfizz/OpcodeCleanup.re: cleanUpOpcodeName"]}
{"id": "C58", "title": "Modulation keys are distinct for distinct parameters", "statement": "Keys of controllers with different number, curve, smoothing or step differ; keys of sources or targets of different kind, region or number differ, as long as the numbers fit their fields.", "quantifier": "every kind and every number", "why_tests_cant": "all numbers", "anchors": ["src/sfizz/modulations/ModKey.cpp: createCC, createNXYZ", "src/sfizz/modulations/ModKey.h"]}
{"id": "C59", "title": "Modulation sources are advanced once per block", "statement": "In each block in which a voice is rendered, every source of its region is advanced exactly once, whichever targets are asked for and in whatever order; a source shared by all voices is advanced exactly once per block however many voices play.", "quantifier": "every modulation graph without circular dependencies, every set of voices and requests", "why_tests_cant": "all graphs and orders of requests", "anchors": ["src/sfizz/modulations/ModMatrix.cpp: beginCycle, endCycle, beginVoice, endVoice, getModulation"]}
{"id": "C60", "title": "A modulation target gets the combination of its sources", "statement": "The buffer of a target holds, at each frame, the sum (or the product, for multiplicative targets) over the connections that apply to the voice of the source's signal times its depth, the depth being the set depth plus the velocity part times the trigger value, modulated by the depth target when there is one; the result does not depend on the order of the requests.", "quantifier": "every modulation graph without circular dependencies, every sequence of requests, over every commutative semiring", "why_tests_cant": "all graphs and request orders", "anchors": ["src/sfizz/modulations/ModMatrix.cpp: getModulation"]}
{"id": "C61", "title": "Curve sets return the curve that was stored", "statement": "After storing a curve under an explicit index below 256, looking that index up gives the curve and every other index is unchanged; a curve stored without index is appended unless an explicit index was used before, in which case it is ignored; indices without a curve give the default curve; indices outside the range are ignored.", "quantifier": "every curve set and every index", "why_tests_cant": "all indices and all sequences of headers", "anchors": ["src/sfizz/Curve.cpp: CurveSet::addCurve, addCurveFromHeader, getCurve"]}
{"id": "C62", "title": "Low frequency oscillators give their shape at the right phase, whatever the block size", "statement": "The output of an LFO at each frame is zero during its delay and afterwards the sum over its sub-oscillators of offset plus scale times the shape at the phase, which is the start phase plus the phase offsets plus the frequency summed over the frames so far, times the fade-in; the output does not depend on how the frames are cut into blocks; the shapes stay between -1 and 1.", "quantifier": "every LFO description, every modulation of frequency and phase, every segmentation into blocks", "why_tests_cant": "all descriptions, modulations and segmentations", "anchors": ["src/sfizz/LFO.cpp: LFO::process, eval, processFadeIn, generatePhase"]}
{"id": "C63", "title": "Loops of sample files are read as stored", "statement": "The loops of the first sampler chunk of a RIFF file, at most sixteen, and the loops of an AIFF instrument with their markers are returned as they are stored in the file, for any other chunks around them; the loop kept for playback ends inside the sample and is that of the file if the file's is inside the sample.", "quantifier": "every well formed file: all loop values, all markers, all other chunks", "why_tests_cant": "all files", "anchors": ["src/sfizz/FileMetadata.cpp: extractRiffInstrument, extractAiffInstrument", "src/sfizz/FilePool.cpp: getReaderInformation"]}
{"id": "C64", "title": "A region gets the opcodes of the headers above it and its own, in that order", "statement": "Loading a file gives the same layers, in the same order, with the same parameters, the same note activation lists and the same keyswitch lists as loading the flat file in which each region header carries the opcodes of the global, master and group in force followed by its own; each region has the parameters it would have alone under those opcodes, whatever regions, groups and masters came before.", "quantifier": "every sequence of header blocks and opcodes, any other opcode handler", "why_tests_cant": "all files, and any handler of the remaining opcodes", "anchors": ["src/sfizz/Synth.cpp: onParseFullBlock, buildRegion", "src/sfizz/Region.cpp: Region::parseOpcodes"]}
{"id": "C65", "title": "The polyphony hierarchy of a region is that of the headers above it", "statement": "The chain of parents of a region's set, up to the root, is exactly the group, master and global headers in force at the region; creating a set for a header always finds a parent.", "quantifier": "every sequence of header blocks", "why_tests_cant": "all nestings and orders of headers", "anchors": ["src/sfizz/Synth.cpp: onParseFullBlock", "src/sfizz/RegionSet.h"]}
{"id": "C66", "title": "note_offset and octave_offset transpose an instrument", "statement": "A control header with offsets before everything else moves the key range, key centre and keyswitch keys of each region by 12 times the octave offset plus the note offset, clamped to the keyboard, and changes nothing else; a note then triggers the regions which the note that far below triggered before.", "quantifier": "every file without other control headers, every offset, every note", "why_tests_cant": "all files, offsets and notes", "anchors": ["src/sfizz/Region.cpp: offsetAllKeys", "src/sfizz/Synth.cpp: handleControlOpcodes, buildRegion"]}
{"id": "C67", "title": "Keys activate exactly the regions mapped to them, and the last keyswitch selects", "statement": "The activation list of a note holds exactly the regions kept at load whose key range holds the note, in file order; each keyswitch list holds exactly the regions with that switch; after any series of note on and off a region with sw_last is switched on exactly if the last switch pressed, or the default one, is one of its own, and no list is read outside its 128 entries.", "quantifier": "every file, every series of notes", "why_tests_cant": "all files and all series of notes", "anchors": ["src/sfizz/Synth.cpp: finalizeSfzLoad, buildRegion, Impl::noteOnDispatch, Impl::noteOffDispatch"]}
{"id": "C68", "title": "The preloaded part of a file covers every offset at which a note can start", "statement": "For every region using a sample, whatever the controller values and the random draw, the offset at which a note starts is at most the offset up to which finalizeSfzLoad asks the file to be preloaded, and it can be computed without reading outside the table of controllers.", "quantifier": "every list of opcodes, every set of regions sharing the file, every controller state, every random draw", "why_tests_cant": "all opcode lists, controller states and draws", "anchors": ["src/sfizz/Synth.cpp: finalizeSfzLoad", "src/sfizz/RegionStateful.cpp: sampleOffset", "src/sfizz/Region.cpp: Region::parseOpcode"]}
{"id": "C69", "title": "The loop of a region is that of its opcodes, completed from the file", "statement": "After loading, the end of the sample and the ends of the loop are those of the last opcodes that give them, otherwise those stored in the file, otherwise the whole sample; the region loops exactly if its mode, or the file without a mode, asks for it and the loop is not empty; the loop a voice plays lies in the file and is exactly this loop when it ends before the sample.", "quantifier": "every list of opcodes, every file information", "why_tests_cant": "all combinations of opcodes and files", "anchors": ["src/sfizz/Synth.cpp: finalizeSfzLoad", "src/sfizz/Region.cpp: Region::parseOpcode", "src/sfizz/RegionStateful.cpp: sampleEnd, loopStart, loopEnd"]}
{"id": "C70", "title": "A region answers the keys its opcodes name", "statement": "The key range, key centre, key crossfades and keyswitches of a loaded region are those of the last opcodes in force that give them, read as numbers of the keyboard or names of notes, whatever other regions and unknown opcodes the file holds; a key is in the region's activation list exactly if it lies between its lowest and highest key.", "quantifier": "every sequence of header blocks and opcodes, any handler of the other opcodes", "why_tests_cant": "all files and all orders of opcodes", "anchors": ["src/sfizz/Region.cpp: Region::parseOpcode", "src/sfizz/Synth.cpp: buildRegion, finalizeSfzLoad"]}
{"id": "C71", "title": "A flex envelope does not depend on the block size", "statement": "The values that a flex envelope gives for a run of frames, and the state it is left in, are the same however the frames are cut into calls of process, including empty ones, whatever the delay, the release planned and the point reached.", "quantifier": "every description, every state of the envelope, every list of block sizes, any rounding of the arithmetic", "why_tests_cant": "all cuts of all runs", "anchors": ["src/sfizz/FlexEnvelope.cpp: FlexEnvelope::Impl::process, advanceToStage"]}
{"id": "C72", "title": "A flex envelope follows its points", "statement": "The output is silent during the delay, goes through the points before the sustained one, each in the time and the shape given, stays in the stage of the sustained point until the release, then goes from the level reached through the points after it, and is silent for ever; without a sustained point all points are played; taking back a release holds the level; in exact arithmetic each stage ends at the level of its point and no value leaves the range of the levels.", "quantifier": "every list of points, every delay, every moment of the release, every number of frames", "why_tests_cant": "all descriptions and release times", "anchors": ["src/sfizz/FlexEnvelope.cpp: start, release, cancelRelease, Impl::process", "src/sfizz/FlexEGDescription.h"]}
{"id": "C73", "title": "The stealing algorithms take the voice they name", "statement": "A voice is taken only when the number of sounding candidates has reached the limit. \"first\" then takes the earliest candidate, \"oldest\" the earliest of the oldest, \"envelope_and_age\" the oldest voice whose event is below half the mean power, if it is older than half the largest age, else a voice of the largest age. The age is the number of frames since the block of the start.", "quantifier": "every list of candidates, every limit, every age and power", "why_tests_cant": "all states of the voices", "anchors": ["src/sfizz/VoiceStealing.cpp", "src/sfizz/Voice.cpp: renderBlock (age)"]}
{"id": "C74", "title": "Words and booleans of opcodes", "statement": "The value of an opcode that takes a word is the one the word stands for, and there is no value for other words; \"on\" and \"off\" in any case and integers (false only for zero) are booleans, and nothing else is.", "quantifier": "every text", "why_tests_cant": "all texts", "anchors": ["src/sfizz/Opcode.cpp: readBooleanFromOpcode, readOptional", "src/sfizz/Defaults.h"]}
{"id": "C75", "title": "Adjacent ranges leave no gap and do not overlap", "statement": "A velocity, controller or aftertouch range with integer bounds holds exactly the MIDI values between the bounds; a range that ends at b and one that starts at b + 1 share no value and leave none out, of any precision a float can have.", "quantifier": "every spelling of the bounds, all bounds from 0 to 127, every 24-bit number", "why_tests_cant": "all floating-point controller values around every bound", "anchors": ["src/sfizz/Defaults.h: normalizeInput, kFillGap", "src/sfizz/Defaults.cpp", "src/sfizz/SfzHelpers.h: normalize7Bits"]}
{"id": "C76", "title": "Numbers of opcodes", "statement": "The number at the beginning of the text, with sign, fraction and exponent, is the value, rounded once; text after it does not matter. Opcodes with enforced bounds never have a value outside, opcodes with permissive bounds take any number, and the others replace a number out of bounds by the default.", "quantifier": "every text, every specification of the table of defaults", "why_tests_cant": "all texts", "anchors": ["src/sfizz/Opcode.cpp: readFloat_, transformFloat_", "src/sfizz/utility/StringViewHelpers.h: readLeadingFloat", "src/sfizz/Defaults.cpp"]}
{"id": "C77", "title": "The amplitude envelope has the stages of its description", "statement": "The output is the start level during the delay, rises by equal steps for the attack time, is 1 for the hold time, is multiplied by the factor of the decay time until it reaches the sustain level and stays there; after a release it is multiplied by the factor of the release time until it is below 1/10000, goes to zero in a straight line, and stays there. Low sustain levels and one-shot oscillators go over to the release by themselves.", "quantifier": "every description, every rounding, every moment of the release, every number of frames", "why_tests_cant": "all descriptions and release times", "anchors": ["src/sfizz/ADSREnvelope.cpp: reset, updateValues, getBlockInternal, startRelease, cancelRelease"]}
{"id": "C78", "title": "Controllers start exactly the regions whose conditions they meet", "statement": "After any history, a controller, pitch wheel or aftertouch event starts a region through its controller trigger exactly once when the value is in the trigger range, differs from the previous value of that controller (polyphonic aftertouch excepted), the random value, the key range for polyphonic aftertouch, the switches, the controller conditions, the sequence position and the timer allow it, and not at all otherwise.", "quantifier": "every instrument, every history of API calls, every event", "why_tests_cant": "all histories and values", "anchors": ["src/sfizz/Layer.cpp: registerCC", "src/sfizz/Synth.cpp: ccDispatch"]}
{"id": "C79", "title": "Files reach memory frame by frame, in both directions", "statement": "Reading a file block after block delivers its frames in order, or exactly reversed with the channels of each frame kept in order, whatever the block sizes and whichever of the two backward readers is used. Streaming puts every sample of every channel at its place for every chunk size and counts the frames filled; what is read before playing is the beginning of what is streamed. No buffer is left, and a file cut short is played up to its end.", "quantifier": "every file content, number of channels, number of frames, sequence of block sizes, chunk size", "why_tests_cant": "all contents, sizes and block boundaries", "anchors": ["src/sfizz/AudioReader.cpp: readNextBlock, reverse_frames", "src/sfizz/FilePool.cpp: readBaseFile, streamFromFile"]}
{"id": "C80", "title": "Block operations with vectors do what the plain loops do", "statement": "Gain, division, addition, subtraction, multiply-add, copy and clamping of a block of samples give with four-lane vectors, for every address and size of the buffers, exactly the memory that the plain loops give: each output sample is the operation on the input samples at its index, computed once in the same order, nothing else is written, nothing outside the buffers is read, and no vector access is unaligned. In place operation is allowed.", "quantifier": "every buffer address and size, every content, every arithmetic (also the rounded one of the processor)", "why_tests_cant": "all alignments of three pointers and all sizes, any arithmetic", "anchors": ["src/sfizz/simd/HelpersSSE.cpp", "src/sfizz/simd/HelpersScalar.h"]}
{"id": "C81", "title": "Interleaving, ramps, sums, differences and range checks of blocks", "statement": "Interleaved samples are taken apart and put together frame by frame; a ramp writes its start value incremented i times at index i and returns the next one; the sums, running sums and differences of a block are those of its samples in order; the range check answers whether no sample lies outside. With and without vectors, for every address and size, nothing else is written, nothing outside the buffers is read and no vector access is unaligned.", "quantifier": "every buffer address and size, every content; exact arithmetic for vectors where the order of operations differs", "why_tests_cant": "all alignments, sizes and contents", "anchors": ["src/sfizz/simd/HelpersSSE.cpp", "src/sfizz/simd/HelpersScalar.h"]}
{"id": "C82", "title": "What a rendered block consists of", "statement": "Each sample of a block is the master volume times the sum, over the stereo outputs sent to its pair of channels (output i goes to pair i modulo the number of pairs), of what their effect buses give: the samples of the voices of that output weighted with their region's gain to the bus, through the bus's effects in series, times the bus's gains to main and mix. The effects of a bus advance by exactly one block, except on a bus whose two gains are zero. No access goes outside the buffers. Without effects the block is the volume times the sum of the voices.", "quantifier": "every number of frames, channels (even, positive), outputs, buses, effects and voices, every gain and volume, any effects; addition exact", "why_tests_cant": "unbounded combinations of voices, buses, outputs and effects", "anchors": ["src/sfizz/Synth.cpp", "src/sfizz/Effects.cpp"]}
{"id": "C83", "title": "The effect buses a loaded file has", "statement": "After loading, bus k of output o has the effects of the <effect> headers that name this bus and this output, in the order of the file; its gains to main and mix are the last ones given by fxNtomain, fxNtomix or directtomain in headers of that output (default 1 to main for main buses, else 0); a bus exists exactly if it is a main bus or something was given for it. Bus numbers outside 1 to 256 are ignored and names that are neither empty, main nor fx and a number add no effect. Every output used by a region or header has a main bus, so that rendering never goes beyond the buses.", "quantifier": "every sequence of effect headers and opcodes, every set of region outputs", "why_tests_cant": "unbounded sequences of headers", "anchors": ["src/sfizz/Synth.cpp"]}
{"id": "C84", "title": "Where included files are looked for and how often they are entered", "statement": "Whatever the include directives of a file and of the files it includes are, relative paths are taken relative to the directory of the first file, never of the including one, and with the include guard on no file is entered twice.", "quantifier": "every file system, every text of the files, every depth of inclusion, every fuel with which parsing ends", "why_tests_cant": "unbounded include graphs", "anchors": ["src/sfizz/parser/Parser.cpp"]}
{"id": "C85", "title": "What interpolation between frames gives and where the sine table is read", "statement": "Third-order interpolation gives the cubic through the two frames around the position with the slopes of the lines through their neighbours, so it passes through the frames and gives back parabolas; the spline stays in the range of the four frames it reads, gives back straight lines and has no jumps; linear interpolation is the line between the frames; the nearest frame is at most one half away; vector and plain versions agree. Sine cardinal interpolation reads the table only between its entries, at a point off by less than 1/60 frame.", "quantifier": "every buffer, every fractional position in [0, 1], every number of points, any monotone rounding exact on small integers", "why_tests_cant": "a continuum of positions and values", "anchors": ["src/sfizz/Interpolators.hpp", "src/sfizz/MathHelpers.h", "src/sfizz/WindowedSinc.cpp", "src/sfizz/WindowedSinc.h"]}
{"id": "C86", "title": "The law of panning and stereo width", "statement": "For any pan value, however far out, the table of gains is read inside; the gains are in [0, 1]; further right the left channel is never louder and the right one never softer. Hard left and right give 1 and 0, the middle sqrt(1/2) twice; mirroring exchanges the gains; the squares of the gains add up to 1. Width 1 leaves the channels, -1 exchanges them, 0 gives the same on both. The vector code reads inside the table as well.", "quantifier": "every real pan and width, every sample, any rounding that is monotone and exact on the ends of the table", "why_tests_cant": "a continuum of positions; the sum of squares fails only at single points", "anchors": ["src/sfizz/Panning.cpp"]}
{"id": "C87", "title": "Which case a message runs", "statement": "A message runs the body of a case exactly if its path is the pattern of the case with a decimal number below 2^32 in place of every '&' and its signature is that of the case; the case gets these numbers in order. At most one case and one reading of the numbers fit; the hash with which the case is found never hides one.", "quantifier": "every path, every signature, all 485 cases", "why_tests_cant": "unbounded paths; hash collisions", "anchors": ["src/sfizz/SynthMessaging.cpp", "src/sfizz/SynthMessagingHelper.hpp", "src/sfizz/utility/StringViewHelpers.h"]}
{"id": "C88", "title": "What messages reach and change", "statement": "What a message works on (a region, filter, equalizer, sub-oscillator, envelope, point, effect gain, controller, note, voice) is there and is what the numbers in its path name; otherwise nothing happens. Queries change nothing and answer exactly if there is something; setting answers nothing and adds no element; adding answers the number of the new element and keeps all others. Voices always have the envelopes, filters and equalizers their region needs. Only existing controllers are entered.", "quantifier": "every state of the synthesizer, every message", "why_tests_cant": "all numbers in a path, all sequences of messages", "anchors": ["src/sfizz/SynthMessaging.cpp", "src/sfizz/SynthMessagingHelper.hpp", "src/sfizz/VoiceManager.cpp", "src/sfizz/CCMap.h"]}
{"id": "C89", "title": "The level and the pitch a note starts with", "statement": "The gain of a note is the square of the velocity at amp_veltrack=100, constant at 0 and the complement of the square at -100; it never leaves the interval between 0 and the gain amp_keytrack gives for the key, grows with the velocity, and follows the amp_velcurve points. amp_veltrack acts continuously. n keys change the level by n times amp_keytrack decibels and the pitch by n times pitch_keytrack cents (12 keys: an octave); transpose counts 100 cents of tune; velocity and chance add at most pitch_veltrack and pitch_random. The volume is the sum of the volumes of the headers within amp_random, less rt_decay per second held for release regions only. A start by a controller is not subject to velocity.", "quantifier": "every region, key, velocity, controller state and random draw", "why_tests_cant": "all velocities, amounts and controllers at once", "anchors": ["src/sfizz/RegionStateful.cpp", "src/sfizz/Voice.cpp:503-505", "src/sfizz/Region.cpp:1780-1789"]}
{"id": "C90", "title": "Scala scales tune the keys as written", "statement": "A text in the Scala format is read as the scale it denotes (comments, empty lines, text behind a note), never beyond the room for tones. The frequency of a key is that of its degree counted from the root key, the last tone being the period, relative to key 69 which has the tuning frequency; rising scales give rising keys; equal temperament at 440 Hz leaves every key as it is. After any sequence of settings the keys depend only on the scale, the root key and the frequency set last, in whatever order, and both queries agree.", "quantifier": "every text, every scale, root key, tuning frequency and key, every sequence of settings", "why_tests_cant": "all scales, roots and keys, all orders of settings", "anchors": ["src/sfizz/Tuning.cpp", "src/external/tunings/src/Tunings.cpp"]}
{"id": "C91", "title": "Stretch tuning follows its curves", "statement": "For every amount the stretch curve has a ratio for each of the 128 keys, rises with the keys and stays within the measured curves; it is flat at 0, the measured curve at the three positions of the knob and the last one from 1 on. Between keys the ratio is interpolated, outside it is that of the first or last key, and it never falls as the key rises. A larger amount stretches at least as much.", "quantifier": "every amount, every key, whole or not", "why_tests_cant": "a continuum of amounts and keys", "anchors": ["src/sfizz/Tuning.cpp:260-329", "src/sfizz/railsback/", "src/sfizz/Synth.cpp:1020-1031"]}
{"id": "C92", "title": "Opcodes of a region are read without reaching outside, and what they connect exists", "statement": "Whatever opcodes a region is given, in whatever order, reading them looks up no number a name does not have and touches no element of a filter, equalizer, LFO, envelope, step or effect list that is not there, provided that no number in a name is lost by overflow; the names of all cases have different hashes. Afterwards every modulation starts at an LFO or envelope that exists and ends at a filter, equalizer or LFO that exists (up to 256 of each; the depth of fileg and fillfo and eg_freq_lfo excepted), its controller exists, and the envelope of the amplitude is the first of those flagged as such.", "quantifier": "every list of opcodes, every name, number and value", "why_tests_cant": "over 500 opcodes with up to three numbers each, in any order and combination", "anchors": ["src/sfizz/Region.cpp:55-943", "src/sfizz/Region.cpp:945-1713", "src/sfizz/Region.cpp:1853-1917"]}
{"id": "C93", "title": "Modulations are what the last opcodes naming them say", "statement": "A region has at most one connection from a source to a target. For each of the parameters that controllers modulate, the depth, curve, smoothing and step of the controller n are those of the last _onccn, _curveccn, _smoothccn and _stepccn opcodes of this parameter (and of this filter or equalizer), 0 where there is none, and there is a modulation exactly if there is one of these opcodes. The depth of the numbered LFO or envelope i on a parameter is the value of the last lfoi_ or egi_ opcode naming it. Other opcodes do not change them.", "quantifier": "every list of opcodes, every controller, LFO, envelope, filter and equalizer number up to 256", "why_tests_cant": "all orders and combinations of opcodes", "anchors": ["src/sfizz/Region.cpp:55-943", "src/sfizz/Region.cpp:1246-1713", "src/sfizz/Region.cpp:1853-1917", "src/sfizz/modulations/ModKey.cpp:231-340"]}
{"id": "C94", "title": "Members of a region are what the last opcodes naming them say", "statement": "After any opcodes every entry of every member of a region (members, maps of controllers, filters, equalizers, effect sends, LFOs, envelopes of both versions and their points) has the value that the opcodes writing it, listed once and for all, give to it in turn; no other opcode matters. An opcode named like its member sets it to the value of its last occurrence. The order of two opcodes only matters if they have the same name or are in one of a few listed groups such as key, lokey, hikey and pitch_keycenter. The two bounds of a range do not influence each other.", "quantifier": "every list of opcodes, every name, number and value, every member", "why_tests_cant": "over 500 opcodes with numbers, in any order", "anchors": ["src/sfizz/Region.cpp:55-943", "src/sfizz/Region.cpp:945-1713", "src/sfizz/Range.h:49-65"]}
{"id": "C95", "title": "Sample buffers keep their contents, free all their memory, and the reported memory is the memory in use", "statement": "After any sequence of construction, resizing, clearing, copying, moving, assignment, element writes and destruction of sample buffers, every buffer holds exactly the bytes it was given: a resize keeps the first elements and adds zeros, a copy is equal and independent, a moved-from buffer is empty, a failed allocation changes nothing. No access leaves its block, no block is freed twice or leaked, the data is aligned, and the counters behind getAllocatedBuffers and getAllocatedBytes are the number and total size of the blocks in use.", "quantifier": "All alignments of 1 to 32 bytes, element sizes, sequences of operations on any number of buffers, and all answers of the allocator including failures at any point; sizes that do not wrap size_t.", "why_tests_cant": "Depends on the addresses the allocator returns, on failures at each allocation, and on arbitrary interleavings of moves, copies and resizes.", "anchors": ["src/sfizz/Buffer.h", "src/sfizz/Synth.h"]}
{"id": "C96", "title": "Controllers modulate with the value they have, smoothed and stepped as asked", "statement": "The signal of a modulation by a controller is, without smoothing, the value of the controller through its curve and cut to its steps: constant over the block and of the voice itself for the controllers that belong to voices (velocities, note number, gate, random and alternating values, distance of keys), the line through the events for all others; what happened before plays no part. With smoothing the signal never leaves an interval that holds the values of the controller, starts at the value of the controller, and is at it once the controller has stood still for the smoothing time (at least 16 frames). The signal of one modulation does not depend on the others.", "quantifier": "All parameters of modulations, curves, contents of the midi state, voices, and sequences of initialisations, blocks of any size, resets and changes of the sample rate.", "why_tests_cant": "The smoothers are state that persists over blocks, voices and files; sharing and wrong starts show only with particular interleavings of voices, blocks and resets.", "anchors": ["src/sfizz/modulations/sources/Controller.cpp", "src/sfizz/Smoothers.cpp", "src/sfizz/modulations/ModMatrix.cpp", "src/sfizz/SfzHelpers.h"]}
{"id": "C97", "title": "Oscillators play their wave periodically and inside their tables", "statement": "After a table set is built, each of its 24 tables reads as its wave repeated, four cells to either side. An oscillator whose phase is between 0 and 1 gives every frame of a block at any frequency, detune ratio and quality without reading outside of the storage, what it gives is the interpolation of the repeated wave in the tables (one, or two neighbouring ones that are mixed), and its phase ends between 0 and 1; with exact arithmetic frame k is read at the initial phase plus the sum of the k first increments, modulo the period. Every value of the opcode oscillator_phase gives a phase to start from in [0, 1). Unison oscillators have gains in equal parts from right to left summing to 1, and opposite pairs of detunes not larger than the one asked for.", "quantifier": "All contents and sizes of tables, frequencies and ratios with increments up to 2^30 periods per frame, qualities, block lengths, initial phases, roundings that are monotone, exact on integers and within one thousandth (binary32 among them), numbers of unison voices and detunes.", "why_tests_cant": "The out-of-range reads would need phases and roundings at the very ends of the period; tests play a few frequencies.", "anchors": ["src/sfizz/Wavetables.cpp", "src/sfizz/Wavetables.h", "src/sfizz/Voice.cpp", "src/sfizz/Region.cpp", "src/sfizz/MathHelpers.h", "src/sfizz/SynthMessaging.cpp"]}
{"id": "C98", "title": "Oscillator tables hold the audible partials and no others", "statement": "The table that is chosen for a frequency f up to 22050 Hz has only partials h with h*f at most 24650 Hz, which at a sample rate of 44100 Hz leaves no alias below 19450 Hz, and has every partial (of the 512 of a table) with h*f at most 18300 Hz. The samples of the sine, triangle, saw and square waves are the partial sums of the Fourier series of these waves, odd and without a constant part.", "quantifier": "All frequencies, harmonics and table rows; all arrays of logarithms and start frequencies within 1/10000 and a millionth of their formulas; all amplitudes, table sizes and numbers of harmonics.", "why_tests_cant": "Aliases appear at isolated frequencies just above the limits of tables; a test would have to sweep the continuum of frequencies and measure spectra.", "anchors": ["src/sfizz/Wavetables.cpp", "src/sfizz/Wavetables.h", "src/sfizz/Config.h"]}
{"id": "C99", "title": "All parts run at the synthesizer's rate and every voice can play every region", "statement": "After any sequence of calls that set the sample rate, the block size and the number of voices, load files, and add to regions by messages, the oscillators, LFOs and flexible envelopes of all voices and the effects of all rendered outputs run at the current sample rate, voices, bus buffers and effects are made for the current block size, every rendered output has its buses, and every voice has at least the filters, equalizers, LFOs and envelopes that each loaded region needs (without add_filter and add_eq). Filters and equalizers run at the sample rate of the synthesizer once it is set after the last change of their number. Voices measure their power exactly if the way of stealing needs it, until the number of voices changes.", "quantifier": "All sequences of API calls; all numbers of voices, sample rates, block sizes; all files by what their regions need and their effect headers.", "why_tests_cant": "The wrong rates depend on the order of calls over the life of the synthesizer; tests set the rate once on a fresh object or run at the default rate.", "anchors": ["src/sfizz/Synth.cpp", "src/sfizz/Voice.cpp", "src/sfizz/FilterPool.cpp", "src/sfizz/EQPool.cpp", "src/sfizz/VoiceManager.cpp", "src/sfizz/SynthMessaging.cpp", "src/sfizz/Effects.cpp"]}
{"id": "C100", "title": "What a voice's filters do to a note does not depend on what they did before", "statement": "Over any calls of a filter or equalizer, its union never holds two objects, only the object that lives there is used, it is the one of the type and channels set last, and destruction leaves nothing alive. Processing gives every frame once and in order, at the sample rate set last, with the settings at the last multiple of 16 frames of the block. The sound of a note through a voice's filter is a function of the note alone and of the sample rate, whatever the filter was used for before; a note through several filters is the note through one after the other; a block may be divided at multiples of 16 frames, or anywhere if the settings stand still. The cutoff stays in the range of its opcode.", "quantifier": "All sequences of calls; all types and numbers of channels; all blocks, modulations and shortages of buffers; all filters whose frames are a function of settings, sample rate and memory; any initial content of the union.", "why_tests_cant": "Leftover state and wrong objects show only for particular orders of types, channels and notes on the same voice; tests use fresh filters.", "anchors": ["src/sfizz/SfzFilter.cpp", "src/sfizz/SfzFilter.h", "src/sfizz/SfzFilterImpls.hpp", "src/sfizz/FilterPool.cpp", "src/sfizz/EQPool.cpp", "src/sfizz/Voice.cpp"]}
{"id": "C101", "title": "Effects work frame by frame, in place or not, and forget when cleared", "statement": "What an effect of a bus puts out, and its state afterwards, depends only on its state and on the samples it gets: not on whether inputs and outputs are the same buffers (the distortion asks for different ones), nor on how the sound is cut into blocks (unless a compressor or gate links its channels). Nothing outside the rendered frames of the outputs is written. The same holds for a chain of effects on a bus. Clearing an effect takes back everything it processed, so that what follows does not depend on what came before.", "quantifier": "All effects but filter and eq, with all settings and states; all samples, blocks and divisions of blocks; all buffers; all chains; any arithmetic of samples and any per-frame function of the generated code.", "why_tests_cant": "The state space of an effect is unbounded and faults show at block boundaries, in the second place of a chain or after a clear, for particular signals; tests render fixed sounds with one block size.", "anchors": ["src/sfizz/effects", "src/sfizz/effects/impl/ResonantArray.cpp", "src/sfizz/Effects.cpp", "src/sfizz/OversamplerHelpers.hxx", "src/external/hiir/hiir"]}
{"id": "C102", "title": "Effects that shape levels never make a sound stronger than they may", "statement": "From the moment they are made, the rectifier and the limiter put out no more energy (sum of squared samples) than they were given, and the compressor and the gate at most the square of their input gain times that, on each channel and over any sequence of blocks; a silent channel stays silent. The oversamplers they and the distortion use add no energy either. The gain effect multiplies by one factor, the width effect scales the sum and the difference of the channels each by one factor, and the auto-pan effect gives the channels gains that always add up to the same and never fall below the dry level.", "quantifier": "All input signals, splits into blocks, settings in the range of the opcodes (ratio of at least 1, amounts of 0 to 100 percent), buffers shared between input and output or not.", "why_tests_cant": "The filters have an infinite response and memory across blocks; only an invariant over all inputs excludes an input that makes them grow.", "anchors": ["src/sfizz/effects/Rectify.cpp", "src/sfizz/effects/Compressor.cpp", "src/sfizz/effects/Gate.cpp", "src/sfizz/effects/Limiter.cpp", "src/sfizz/effects/Gain.cpp", "src/sfizz/effects/Width.cpp", "src/sfizz/effects/Apan.cpp", "src/sfizz/effects/gen/compressor.hxx", "src/sfizz/effects/gen/gate.hxx", "src/sfizz/effects/gen/limiter.hxx", "src/sfizz/OversamplerHelpers.hxx", "src/external/hiir/hiir/StageProcFpu.hpp"]}
{"id": "C103", "title": "Opcodes that are not understood are listed once, and being ignored later changes no region", "statement": "After loading a file, the list of unknown opcodes holds exactly the names that Region::parseOpcode refuses, each once, in the order in which they first come. Whether an opcode is refused depends on its name only, not on its value nor on the region (except for the opcodes by which an envelope moves the frequency of an LFO). Skipping names that are already in the list therefore leaves every region as if all its opcodes had been read, whatever regions come before, up to the number of filters and elements nothing was said of. sfizz_get_unknown_opcodes returns the null pointer if all opcodes are understood, and otherwise a string that fills the allocated memory exactly, ends with the only zero byte, and whose parts between the commas are the names of the list.", "quantifier": "for all files, regions, opcode names (identifiers) and values, and all numbers in names", "why_tests_cant": "Names are unbounded in number and the effect of skipping depends on the history of all regions before; a test can only compare a few files.", "anchors": ["src/sfizz/Synth.cpp:156-180", "src/sfizz/Synth.cpp:311", "src/sfizz/Synth.cpp:1849-1853", "src/sfizz/sfizz_wrapper.cpp:288-307", "src/sfizz/Region.cpp:55-1784"]}
{"id": "C104", "title": "Importing an audio file or a DecentSampler preset loads the regions it describes", "statement": "A path is imported as an audio file or as a preset exactly if its extension, in any case, is one of the eight of audio files or .dspreset; no extension is both. An audio file loads as one region that plays the file, and nothing is complained about. A preset loads as its blocks in order: the image of the interface if there is one, the global block, then every group with its regions, each with the opcodes of its own attributes. An attribute with a whole number becomes its SFZ opcode with the number that the value starts with, and is left out if the value starts with none. So do the attributes with fractions, the sustain as a percentage and the crossfade in seconds; a volume becomes one in decibels exactly if its unit says so, and loopEnabled becomes a loop mode. A sample that has a root note and a range of keys, in any order and among any other attributes, answers to exactly that range and is tuned to that root note, whatever its group says.", "quantifier": "for all extensions, names of files, presets with any groups, samples and attributes whose texts can be written on one line, and all results of sorting that put root notes first", "why_tests_cant": "Presets and names are unbounded and the order in which equal attributes are written depends on the sorting of the library.", "anchors": ["src/sfizz/import/sfizz_import.cpp:10-32", "src/sfizz/import/ForeignInstrument.cpp:13-39", "src/sfizz/import/foreign_instruments/AudioFile.cpp:17-56", "src/sfizz/import/foreign_instruments/DecentSampler.cpp:43-228"]}
{"id": "C105", "title": "The lofi effect rounds to the nearest step and holds the sample it took last", "statement": "With bit reduction on, the output is the input rounded to the nearest of the steps that the depth gives, doubled by means between neighbours and filtered down; the error of the rounding is at most half a step, and a sample becomes zero exactly if it is smaller than half a step. With decimation on, every value is the sample of that frame if it is taken and the value before it otherwise. In exact numbers a sample is taken exactly when the elapsed time passes a whole number of periods between two frames, but not when it reaches one exactly at a frame; a period of exactly two frames therefore never takes any sample.", "quantifier": "for all inputs, block lengths, depths between 0 and 100, starting memories, phases in [0,1) and steps of the phase in (0,1]", "why_tests_cant": "The held value depends on all samples before, and the step of the phase at which nothing is ever taken is a single number.", "anchors": ["src/sfizz/effects/Lofi.cpp:113-209"]}
