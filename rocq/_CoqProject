-Q theories Verif
theories/Base.v
theories/Parser.v
theories/Errors.v
theories/Token.v
theories/Combinator.v
theories/Sequence.v
theories/Choice.v
theories/Repeat.v
theories/RangeP.v
theories/ByteP.v
theories/Instances.v
theories/ModelTests.v
theories/Spec.v
theories/SeqSpec.v
theories/ResultProofs.v
theories/LawsProofs.v
theories/TokenProofs.v
theories/SeqProofs.v
theories/CombProofs.v
theories/Properties1.v
theories/ChoiceSpec.v
theories/ChoiceProofs.v
theories/LibSpec.v
theories/ForwardProofs.v
theories/Properties2.v
theories/TidySpec.v
theories/TidyProofs.v
theories/RepeatSpec.v
theories/RepeatProofs.v
theories/RepeatProofs2.v
theories/RepeatProofs3.v
theories/RepeatProofs4.v
theories/Properties3.v
theories/AgreeSpec.v
theories/AgreeProofs.v
theories/CombProofs2.v
theories/ErrSpec.v
theories/ErrProofs.v
theories/ErrProofs2.v
theories/ErrProofs3.v
theories/ErrProofs4.v
theories/LawsProofs2.v
theories/Properties4.v
theories/RangeSpec.v
theories/RangeProofs.v
theories/RangeProofs2.v
theories/ByteProofs.v
theories/Properties5.v
theories/StreamM.v
theories/StreamSpec.v
theories/StreamProofs.v
theories/PosProofs.v
theories/BufferedM.v
theories/BufferedSpec.v
theories/BufferedProofs.v
theories/RefineProofs.v
theories/Properties6.v
theories/DecodeM.v
theories/DecodeSpec.v
theories/DecodeProofs.v
theories/Properties7.v
theories/ChunkSpec.v
theories/ChunkProofs.v
theories/ChunkProofs2.v
theories/ChunkProofs3.v
theories/ChunkProofs4.v
theories/ChunkProofs5.v
theories/ChunkProofs6.v
theories/ChunkProofs12.v
theories/ChunkProofs13.v
theories/ChunkProofs14.v
theories/ChunkProofs15.v
theories/ChunkProofs8.v
theories/ChunkProofs9.v
theories/ChunkProofs10.v
theories/ChunkProofs11.v
theories/ChunkProofs7.v
theories/Properties8.v
theories/StillSpec.v
theories/StillProofs.v
theories/Properties9.v
theories/TotalSpec.v
theories/TotalProofs.v
theories/TotalProofs2.v
theories/Properties10.v
theories/WrapM.v
theories/WrapSpec.v
theories/WrapProofs.v
theories/WrapProofs2.v
theories/WrapProofs3.v
theories/FmtM.v
theories/RegexP.v
theories/FmtSpec.v
theories/FmtProofs.v
theories/Properties11.v
theories/GrammarSpec.v
theories/GrammarProofs.v
theories/GrammarProofs2.v
theories/GrammarProofs3.v
theories/Properties12.v
theories/LspM.v
theories/LspSpec.v
theories/LspProofs.v
theories/Properties13.v
theories/LangProofs.v
theories/JsonM.v
theories/JsonSpec.v
theories/JsonProofs.v
theories/JsonProofs2.v
theories/Properties14.v
theories/DateM.v
theories/DateSpec.v
theories/DateProofs.v
theories/Properties15.v
theories/IniM.v
theories/IniSpec.v
theories/IniProofs.v
theories/Properties16.v
theories/HttpM.v
theories/HttpSpec.v
theories/HttpProofs.v
theories/Properties17.v
theories/Mp4M.v
theories/Mp4Spec.v
theories/Mp4Proofs.v
theories/Properties18.v
theories/AsyncM.v
theories/AsyncSpec.v
theories/AsyncProofs.v
theories/AsyncProofs2.v
theories/Properties19.v
theories/DispSpec.v
theories/DispProofs.v
theories/Properties20.v
theories/ReportSpec.v
theories/ReportProofs.v
theories/Properties21.v
theories/ObjM.v
theories/ObjSpec.v
theories/ObjProofs.v
theories/Properties22.v
theories/SteadySpec.v
theories/SteadyProofs.v
theories/SteadyProofs2.v
theories/SteadyProofs5.v
theories/SteadyProofs3.v
theories/SteadyProofs4.v
theories/Properties23.v
theories/TwinSpec.v
theories/TwinProofs.v
theories/Properties24.v
theories/SearchSpec.v
theories/SearchProofs.v
theories/SliceSpec.v
theories/SliceProofs.v
theories/ExamplesM.v
theories/Properties25.v
theories/SmallSpec.v
theories/SmallProofs.v
theories/Properties26.v
theories/StayProofs.v
theories/Properties27.v
theories/EqSpec.v
theories/EqProofs.v
theories/EqProofs2.v
theories/Properties28.v
theories/ModelTests2.v
theories/FramedM.v
theories/FramedSpec.v
theories/FramedProofs.v
theories/FramedProofs2.v
theories/FramedProofs3.v
theories/Properties29.v
theories/FramedM2.v
theories/FramedM3.v
theories/FinProofs.v
theories/UntilProofs.v
theories/UntilProofs2.v
theories/FramedSpec2.v
theories/FramedProofs4.v
theories/FramedProofs5.v
theories/FramedProofs6.v
theories/Properties30.v
theories/Properties31.v
theories/Properties32.v
theories/Properties33.v
