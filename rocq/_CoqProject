-Q theories Verif
theories/Base.v
theories/ByteSetModel.v
theories/ByteSetProofs.v
theories/ByteSetPrettyProofs.v
theories/ByteSetProps.v
theories/BoundsModel.v
theories/BoundsProofs.v
theories/BoundsProps.v
theories/DataModel.v
theories/DataProofs.v
theories/DataProps.v
theories/ParserModel.v
theories/ParserProofs.v
theories/ProgModel.v
theories/ProgProofs.v
theories/ParserProps.v
theories/HuffmanModel.v
theories/HuffmanProofs.v
theories/HuffmanProps.v
theories/NumericModel.v
theories/NumericProofs.v
theories/NumericProps.v
theories/ValueModel.v
theories/ValueProofs.v
theories/ValueWfProofs.v
theories/ValueProps.v
theories/FormatModel.v
theories/MatchTreeModel.v
theories/DecoderModel.v
theories/DecoderProofs.v
theories/FormatSpec.v
theories/FormatInd.v
theories/LookaheadSpec.v
theories/ExactSpec.v
theories/DecoderProps.v
theories/CompileProofs.v
theories/SoundProofs.v
theories/MatchBoundsProofs.v
theories/FormatProps.v
theories/MatchTreeProofs.v
theories/LookaheadProofs.v
theories/LookaheadProps.v
theories/CompleteProofs.v
theories/CodeTreeProofs.v
theories/DynProofs.v
theories/ExactProps.v
theories/NegativeSpec.v
theories/NegativeProofs.v
theories/NegativeProps.v
theories/TermProofs.v
theories/RepeatProps.v
theories/LocModel.v
theories/LocSpec.v
theories/LocProofs.v
theories/LocAgreeProofs.v
theories/LocPlaceProofs.v
theories/LocSpanProofs.v
theories/LocProps.v
theories/TypeModel.v
theories/TypeSpec.v
theories/TypeUnifyProofs.v
theories/TypeValueProofs.v
theories/TypeProofs.v
theories/TypeProps.v
theories/RecordModel.v
theories/RecordSpec.v
theories/RecordProofs.v
theories/RecordProps.v
theories/TextModel.v
theories/TextSpec.v
theories/TextProofs.v
theories/TextProps.v
theories/CodegenModel.v
theories/CodegenSpec.v
theories/CodegenErase.v
theories/CodegenTree.v
theories/CodegenSim.v
theories/CodegenOps.v
theories/CodegenProofs.v
theories/CodegenProps.v
theories/PrintModel.v
theories/PrintSpec.v
theories/PrintReadProofs.v
theories/PrintProofs.v
theories/PrintEmbedProofs.v
theories/PrintProps.v
theories/BaseSetModel.v
theories/BaseSetSpec.v
theories/BaseSetProofs.v
theories/BaseSetProps.v
theories/UnifyModel.v
theories/UnifySpec.v
theories/UnifyAlias.v
theories/UnifyBase.v
theories/UnifyProofs.v
theories/UnifyComplete.v
theories/UnifyRequests.v
theories/UnifyProps.v
theories/ReifyModel.v
theories/ReifySpec.v
theories/ReifyProofs.v
theories/ReifySolve.v
theories/ReifyRead.v
theories/ReifyAll.v
theories/ReifyProps.v
theories/InferModel.v
theories/InferSpec.v
theories/InferSafe.v
theories/InferProofs.v
theories/InferWf.v
theories/InferProps.v
theories/ElabModel.v
theories/ElabSpec.v
theories/ElabLock.v
theories/ElabProofs.v
theories/ElabProps.v
theories/NameModel.v
theories/NameSpec.v
theories/NameProofs.v
theories/NameProps.v
theories/TypedModel.v
theories/TypedSpec.v
theories/TypedInd.v
theories/TypedTree.v
theories/TypedCompile.v
theories/TypedProofs.v
theories/TypedProps.v
theories/DeflateModel.v
theories/DeflateSpec.v
theories/DeflateBits.v
theories/DeflateHuffman.v
theories/DeflateProofs.v
theories/DeflateBlocks.v
theories/DeflateDynamic.v
theories/DeflateDynamic2.v
theories/DeflateStream.v
theories/DeflateDet.v
theories/DeflateProps.v
theories/GzipModel.v
theories/GzipSpec.v
theories/GzipProofs.v
theories/GzipProps.v
theories/NumCodeModel.v
theories/NumCodeSpec.v
theories/NumCodeProofs.v
theories/NumCodeElab.v
theories/NumCodeProps.v
theories/LayoutModel.v
theories/LayoutSpec.v
theories/LayoutProofs.v
theories/LayoutMemo.v
theories/LayoutTotal.v
theories/LayoutProps.v
theories/OutputModel.v
theories/OutputSpec.v
theories/OutputProofs.v
theories/OutputFlat.v
theories/OutputProps.v
theories/FragModel.v
theories/FragSpec.v
theories/FragProofs.v
theories/FragDraw.v
theories/FragRead.v
theories/FragProps.v
theories/ShowModel.v
theories/ShowSpec.v
theories/ShowLex.v
theories/ShowFlat.v
theories/ShowProofs.v
theories/ShowProps.v
theories/NumShowModel.v
theories/NumShowSpec.v
theories/NumShowTree.v
theories/NumShowLex.v
theories/NumShowProps.v
theories/NumInferModel.v
theories/NumInferSpec.v
theories/NumInferProofs.v
theories/NumInferSound.v
theories/NumInferProps.v
theories/RiffModel.v
theories/RiffSpec.v
theories/RiffProofs.v
theories/RiffProps.v
theories/RleModel.v
theories/RleSpec.v
theories/RleProofs.v
theories/RleProps.v
theories/NumsModel.v
theories/NumsSpec.v
theories/NumsProofs.v
theories/NumsProps.v
theories/PeanoModel.v
theories/PeanoSpec.v
theories/PeanoProofs.v
theories/PeanoProps.v
