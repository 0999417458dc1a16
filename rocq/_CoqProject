-Q theories Verif
theories/Base.v
theories/Spec.v
theories/Float64.v
theories/NDArray.v
theories/ArrayOps.v
theories/SpecFacts.v
theories/IndexProofs.v
theories/ArrayProofs.v
theories/Bind.v
theories/BindProofs.v
theories/RArray.v
theories/RArrayProofs.v
theories/Strides.v
theories/StridesProofs.v
theories/ArrayClaims.v
theories/PropArrays.v
theories/SobolTable.v
theories/Sobol.v
theories/SobolSpec.v
theories/SobolInit.v
theories/Primitive.v
theories/SobolTableProofs.v
theories/SobolProofs.v
theories/FloatProofs.v
theories/SobolClaims.v
theories/PropSobol.v
theories/Micro.v
theories/Stat.v
theories/Qis.v
theories/SynthSpec.v
theories/MicroProofs.v
theories/PickProofs.v
theories/SampleProofs.v
theories/SplitProofs.v
theories/QisProofs.v
theories/StatSpec.v
theories/StatProofs.v
theories/QisClaims.v
theories/RealSpec.v
theories/QisExpect.v
theories/QisExamples.v
theories/FloatExt.v
theories/Ipf.v
theories/IpfSpec.v
theories/IpfProofs.v
theories/MicroDbl.v
theories/IpfClaims.v
theories/IpfDbl.v
theories/IpfExact.v
theories/IpfExamples.v
theories/Qisi.v
theories/QisiProofs.v
theories/QisiClaims.v
theories/QisiExamples.v
theories/QisiPick.v
theories/StatClaims.v
theories/PropStat.v
theories/PropQis.v
theories/PropQisi.v
theories/PropIpf.v
theories/IntegeriseSpec.v
theories/Integerise.v
theories/IntegeriseProofs.v
theories/IntegeriseDbl.v
theories/IntegeriseClaims.v
theories/IntegeriseRound.v
theories/IntegeriseNd.v
theories/IntegeriseExamples.v
theories/PropIntegerise.v
theories/Ddwr.v
theories/DdwrProofs.v
theories/PropDdwr.v
theories/RSpec.v
theories/RApi.v
theories/RApiProofs.v
theories/RApiClaims.v
theories/RApiExamples.v
theories/RIpfSeed.v
theories/PropRApi.v
theories/Lifetime.v
theories/LifetimeSpec.v
theories/LifetimeProofs.v
theories/LifetimeClaims.v
theories/LifetimeExamples.v
theories/PropLifetime.v
theories/Storage.v
theories/StorageSpec.v
theories/StorageProofs.v
theories/StorageExamples.v
theories/PropStorage.v
theories/RSobol.v
theories/RSobolProofs.v
theories/PropRSobol.v
theories/MinMaxProofs.v
theories/PropMinMax.v
theories/QuantSpec.v
theories/QuantProofs.v
theories/PropQuant.v
theories/QisiZeros.v
theories/IntegeriseZeros.v
theories/PropZeros.v
theories/Raking.v
theories/IpfLimit.v
theories/IpfConv.v
theories/ConvExamples.v
theories/PropConv.v
theories/IpfFitSpec.v
theories/IpfFit.v
theories/PropFit.v
theories/StatFlat.v
theories/PropStatVal.v
theories/SynthiSpec.v
theories/Synthi.v
theories/PropSynthi.v
theories/TailSpec.v
theories/GammaGen.v
theories/Tail.v
theories/PropTail.v
theories/TailOddSpec.v
theories/TailHalf.v
theories/TailOdd.v
theories/TailOddVal.v
theories/TailExist.v
theories/PropTailOdd.v
theories/Replace.v
theories/ReplaceProofs.v
theories/PropReplace.v
theories/Normal.v
theories/NormSpec.v
theories/NormalProofs.v
theories/PropNormal.v
theories/EntropySpec.v
theories/Entropy.v
theories/PropEntropy.v
theories/ExpectRound.v
theories/PropExpect.v
theories/NetLin.v
theories/NetPoly.v
theories/NetSpec.v
theories/NetProofs.v
theories/NetHalf.v
theories/PropNet.v
theories/IpfRoundSpec.v
theories/IpfRound.v
theories/PropIpfRound.v
theories/MsgSpec.v
theories/Msg.v
theories/MsgProofs.v
theories/PropMsg.v
theories/DecompSpec.v
theories/DecompProofs.v
theories/PropDecomp.v
theories/RealMargSpec.v
theories/RealMarg.v
theories/PropRealMarg.v
theories/DegSpec.v
theories/DegProofs.v
theories/PropDegen.v
theories/FlatTotal.v
theories/PropFlat.v
theories/HelperSpec.v
theories/Helpers.v
theories/HelperProofs.v
theories/PropHelpers.v
theories/SeedSpec.v
theories/SeedProofs.v
theories/SeedClaim.v
theories/PropSeed.v
theories/IndepSpec.v
theories/IndepProofs.v
theories/IndepClaim.v
theories/PropIndep.v
theories/MisfitSpec.v
theories/MisfitProofs.v
theories/MisfitClaim.v
theories/PropMisfit.v
theories/RenameSpec.v
theories/RenameProofs.v
theories/RenameClaim.v
theories/PropRename.v
theories/OrderSpec.v
theories/OrderClaim.v
theories/PropOrder.v
theories/CoverSpec.v
theories/CoverClaim.v
theories/CoverIndep.v
theories/PropCover.v
theories/IntQisiSpec.v
theories/Fast.v
theories/IntQisi.v
theories/PropIntQisi.v
theories/ChiSpec.v
theories/ChiProofs.v
theories/PropChi.v
theories/DiscSpec.v
theories/DiscProofs.v
theories/PropDisc.v
theories/PadSpec.v
theories/PadProofs.v
theories/PropPad.v
theories/ReorderSpec.v
theories/ReorderProofs.v
theories/PropReorder.v
theories/PopProofs.v
theories/PropPop.v
theories/FairProofs.v
theories/PropFair.v
theories/GrowProofs.v
theories/PeopleSpec.v
theories/PeopleProofs.v
theories/PropGrow.v
theories/PropPeople.v
theories/PipeSpec.v
theories/PipeProofs.v
theories/PropPipe.v
theories/RQisProofs.v
theories/PropRQis.v
