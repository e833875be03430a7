-Q theories Verif
theories/AccSpec.v
theories/AccThy.v
theories/AccThy2.v
theories/AccThy3.v
theories/AccThy4.v
theories/ArnSpec.v
theories/ArnThy.v
theories/ArnThy2.v
theories/ChainThy.v
theories/Cookie.v
theories/CookieSpec.v
theories/CookieThy.v
theories/DlConc.v
theories/DoCookie.v
theories/DotThy.v
theories/Download.v
theories/Drivers.v
theories/EYThy.v
theories/Ein.v
theories/ErrThy.v
theories/Ex.v
theories/ExpConc.v
theories/ExpDecay.v
theories/ExpDecaySpec.v
theories/Experiment.v
theories/ExperimentSpec.v
theories/ExperimentThy.v
theories/FlModel.v
theories/FlSpec.v
theories/FlThy1.v
theories/FlThy2.v
theories/FlThy3.v
theories/FlThy4.v
theories/FlThy5.v
theories/FlThy6.v
theories/Frostt.v
theories/FrosttSpec.v
theories/GatherThy.v
theories/GatherThy2.v
theories/GenSpec.v
theories/GenericSpec.v
theories/GenericThy1.v
theories/GenericThy2.v
theories/GenericThy3.v
theories/GenericThy4.v
theories/GmRunSpec.v
theories/Gmres.v
theories/GmresMath.v
theories/GmresSpec.v
theories/GmresThy1.v
theories/GmresThy2.v
theories/GmresThy3.v
theories/GmresThy4.v
theories/GmresThy5.v
theories/Hash.v
theories/HashThy.v
theories/HashThy2.v
theories/Heap.v
theories/HeapSpec.v
theories/HeapThy1.v
theories/HeapThy2.v
theories/HeapThy3.v
theories/HeapThy4.v
theories/HeapThy5.v
theories/HeapThy6.v
theories/LinExist.v
theories/LinSpec.v
theories/LinThy.v
theories/MatThy.v
theories/Mixed.v
theories/MixedSpec.v
theories/MixedThy.v
theories/Mpo.v
theories/MpoRandom.v
theories/MpoSpec.v
theories/MpoThy.v
theories/Nd.v
theories/NdThy.v
theories/NoLin.v
theories/NoLinSpec.v
theories/NormThy.v
theories/PlotCookie.v
theories/PrecThy.v
theories/ProbSpec.v
theories/Prop_Acc.v
theories/Prop_AccEx.v
theories/Prop_Cookie.v
theories/Prop_DlConc.v
theories/Prop_DoCookie.v
theories/Prop_Dot.v
theories/Prop_Download.v
theories/Prop_Drivers.v
theories/Prop_ExpConc.v
theories/Prop_ExpDecay.v
theories/Prop_Experiment.v
theories/Prop_Fl.v
theories/Prop_Frostt.v
theories/Prop_Gather.v
theories/Prop_Gen.v
theories/Prop_Generic.v
theories/Prop_GmEx.v
theories/Prop_Gmres.v
theories/Prop_Gmres2.v
theories/Prop_Gmres3.v
theories/Prop_Gmres4.v
theories/Prop_Hash.v
theories/Prop_HashSeed.v
theories/Prop_Heap.v
theories/Prop_Heap2.v
theories/Prop_LinEx.v
theories/Prop_Malformed.v
theories/Prop_Map.v
theories/Prop_Mat.v
theories/Prop_Mixed.v
theories/Prop_Mpo.v
theories/Prop_MpoRandom.v
theories/Prop_Num.v
theories/Prop_Opt.v
theories/Prop_Orth.v
theories/Prop_PlotCookie.v
theories/Prop_Prec.v
theories/Prop_Random.v
theories/Prop_Recovery.v
theories/Prop_Rng.v
theories/Prop_RoundSum.v
theories/Prop_RoundSum2.v
theories/Prop_Seed.v
theories/Prop_Size.v
theories/Prop_Sketch.v
theories/Prop_Sketch2.v
theories/Prop_Sketch3.v
theories/Prop_Sketch4.v
theories/Prop_SketchArgs.v
theories/Prop_Svdvals.v
theories/Prop_Tensor.v
theories/Prop_Tol.v
theories/Prop_Total.v
theories/Prop_Trim.v
theories/Prop_TtSvd.v
theories/Py.v
theories/Random.v
theories/RankThy.v
theories/RecSpec.v
theories/RecThy1.v
theories/RecThy2.v
theories/RecThy3.v
theories/RecThy4.v
theories/RecThy5.v
theories/RecThy6.v
theories/RecThy7.v
theories/Rng.v
theories/RoundOpt.v
theories/RoundSpec.v
theories/RoundSumThy.v
theories/RoundThy.v
theories/RoundThy2.v
theories/SZThy.v
theories/Size.v
theories/SizeSpec.v
theories/SkEx.v
theories/SkSpec.v
theories/SkThy1.v
theories/SkThy10.v
theories/SkThy11.v
theories/SkThy12.v
theories/SkThy13.v
theories/SkThy14.v
theories/SkThy15.v
theories/SkThy2.v
theories/SkThy3.v
theories/SkThy4.v
theories/SkThy5.v
theories/SkThy6.v
theories/SkThy7.v
theories/SkThy8.v
theories/SkThy9.v
theories/Sketch.v
theories/Spec.v
theories/SvSpec.v
theories/SvThy.v
theories/SweepThy.v
theories/Tensor.v
theories/TensorNum.v
theories/TensorThy.v
theories/TensorThy2.v
theories/TensorThy3.v
theories/TensorThy4.v
theories/TolThy.v
theories/TrimThy.v
theories/TtSvdThy.v
theories/Utils.v
theories/UtilsNum.v
