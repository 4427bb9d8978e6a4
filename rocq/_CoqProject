-Q theories Verif
theories/AdsrBlocks.v
theories/AdsrEnd.v
theories/AdsrModel.v
theories/AdsrProps.v
theories/AdsrQuery.v
theories/AdsrRange.v
theories/AdsrShape.v
theories/AdsrSplit.v
theories/Band.v
theories/BandModel.v
theories/Base64Model.v
theories/Base64Props.v
theories/CcEnvModel.v
theories/CcEnvelope.v
theories/Clock.v
theories/ClockEvents.v
theories/ClockModel.v
theories/ContainersModel.v
theories/ContainersProofs.v
theories/ContainersProps.v
theories/Controller.v
theories/ControllerModel.v
theories/Crossfade.v
theories/Curve.v
theories/CurveModel.v
theories/EffectBlocks.v
theories/EffectBus.v
theories/Effects.v
theories/EffectsModel.v
theories/Energy.v
theories/EnergyLevels.v
theories/EnergyModel.v
theories/FilePool.v
theories/FilePoolModel.v
theories/FilterUnion.v
theories/FilterUnionModel.v
theories/Flex.v
theories/FlexModel.v
theories/Follower.v
theories/FollowerModel.v
theories/Import.v
theories/ImportModel.v
theories/Interp.v
theories/InterpModel.v
theories/LayerModel.v
theories/LayerPedalProps.v
theories/LayerPedals.v
theories/LayerProofs.v
theories/LayerProps.v
theories/LayerSteps.v
theories/LayerTrigger.v
theories/Lfo.v
theories/LfoModel.v
theories/Load.v
theories/LoadKeys.v
theories/LoadModel.v
theories/LoadSwitch.v
theories/Lofi.v
theories/Memory.v
theories/MemoryModel.v
theories/Message.v
theories/MessageAdd.v
theories/MessageModel.v
theories/MessageReach.v
theories/Meta.v
theories/MetaModel.v
theories/MidiModel.v
theories/MidiProps.v
theories/Mix.v
theories/MixModel.v
theories/ModEval.v
theories/ModEvalModel.v
theories/ModEvalOnce.v
theories/ModEvalValue.v
theories/ModKinds.v
theories/ModModel.v
theories/ModRegistry.v
theories/NoteStart.v
theories/NoteStartModel.v
theories/OpcodeCategory.v
theories/OpcodeClean.v
theories/OpcodeCleanProps.v
theories/OpcodeModel.v
theories/OpcodeNames.v
theories/OpcodeNumbers.v
theories/OscModel.v
theories/OscProofs.v
theories/OscProps.v
theories/OscSpec.v
theories/Pan.v
theories/PanModel.v
theories/ParserAdvance.v
theories/ParserExpand.v
theories/ParserInclude.v
theories/ParserModel.v
theories/ParserProps.v
theories/ParserReader.v
theories/ParserRound.v
theories/ParserSteps.v
theories/Play.v
theories/PlayModel.v
theories/Pool.v
theories/PoolModel.v
theories/Reader.v
theories/ReaderModel.v
theories/RegionConn.v
theories/RegionFrame.v
theories/RegionModel.v
theories/RegionSafe.v
theories/RegionWell.v
theories/Rounding.v
theories/SampleRange.v
theories/SampleRangeModel.v
theories/Setup.v
theories/SetupModel.v
theories/Simd.v
theories/SimdModel.v
theories/SimdMore.v
theories/Smoother.v
theories/SmootherModel.v
theories/Stretch.v
theories/Tuning.v
theories/TuningModel.v
theories/TuningScl.v
theories/Unknown.v
theories/UnknownList.v
theories/UnknownModel.v
theories/ValueModel.v
theories/ValueNumbers.v
theories/ValueRanges.v
theories/Values.v
theories/VoiceChoke.v
theories/VoiceChokeExact.v
theories/VoiceEvent.v
theories/VoiceExamples.v
theories/VoiceInv.v
theories/VoiceModel.v
theories/VoicePedal.v
theories/VoicePoly.v
theories/VoiceProps.v
theories/VoiceRings.v
theories/VoiceSteal.v
theories/VoiceSteps.v
theories/Wavetable.v
theories/WavetableModel.v
