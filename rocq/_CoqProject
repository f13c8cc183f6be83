-Q theories Verif
theories/Base.v
theories/ModelPerm.v
theories/PermTheory.v
theories/Germ.v
theories/GermNF.v
theories/GermAct.v
theories/SpecBraid.v
theories/BraidTheory.v
theories/GermBraid.v
theories/ModelBraid.v
theories/TableTheory.v
theories/WeakOrder.v
theories/PermWords.v
theories/PermGerm.v
theories/PermTable.v
theories/NFApi.v
theories/SpecPerm.v
theories/SpecPermTheory.v
theories/CycleTheory.v
theories/PropsPerm.v
theories/PropsPerm2.v
theories/PropsGNF.v
theories/PropsGNF2.v
theories/ModelPoly.v
theories/SpecPoly.v
theories/PolyTheory.v
theories/PolyDiv.v
theories/EvalTheory.v
theories/PropsPoly.v
theories/PropsCheb.v
theories/CycBridge.v
theories/PropsCyc.v
theories/ModelRepr.v
theories/PropsRepr.v
theories/ModelMatrix.v
theories/SpecMatrix.v
theories/MatrixTheory.v
theories/NumTheory.v
theories/PropsMatrix.v
theories/ModelTL.v
theories/SpecTL.v
theories/GlueTheory.v
theories/GlueWalk.v
theories/ComposeTheory.v
theories/TLTheory.v
theories/TLAlg.v
theories/TLAlg2.v
theories/TLBasis.v
theories/TLCells.v
theories/TLRel.v
theories/PropsTL.v
theories/ModelTLMor.v
theories/TLMorTheory.v
theories/PropsTLMor.v
theories/TLGens.v
theories/TLFlip.v
theories/PropsTLMor2.v
theories/JonesTheory.v
theories/TLTrace.v
theories/PropsTLMor3.v
theories/MarkovTheory.v
theories/PropsTLMor4.v
theories/ModelRep.v
theories/SpecRep.v
theories/RepTheory.v
theories/RepCanon.v
theories/PropsRep.v
theories/ModelLKB.v
theories/LKBTheory.v
theories/PropsLKB.v
theories/ModelPolymat.v
theories/SpecPolymat.v
theories/PolymatTheory.v
theories/PropsPolymat.v
theories/PropsPolymat2.v
theories/PropsPolymat3.v
theories/PropsExtra.v
theories/ModelPolyRep.v
theories/PropsMatrix2.v
theories/ModelTracker.v
theories/SpecTracker.v
theories/TrackerTheory.v
theories/TrackerRun.v
theories/PropsTracker.v
theories/SampleTheory.v
theories/TrackerRun2.v
theories/PropsTracker2.v
theories/PropsTracker3.v
theories/ModelSql.v
theories/PropsSql.v
theories/ModelSearch.v
theories/PropsSearch.v
theories/PropsPolyRep.v
theories/PolyRepTheory.v
theories/PolyRepSpan.v
theories/PropsPolyRep2.v
theories/TLCup.v
theories/FullTwistBraid.v
theories/FullTwist.v
theories/FullTwistRep.v
theories/PropsTwist.v
theories/NCTheory.v
theories/NCGerm.v
theories/BKL.v
theories/NCLift.v
theories/ModelNPar.v
theories/NParMatch.v
theories/NParOrbit.v
theories/NParBlocks.v
theories/NParBuild.v
theories/NParTable.v
theories/PropsNPar.v
theories/PropsDGNF.v
theories/DualTwist.v
theories/PropsPolyRep3.v
theories/NFGeneric.v
theories/PropsDGNF2.v
theories/PropsPolyRep4.v
theories/JSTheory.v
theories/PropsJS.v
theories/DescTheory.v
theories/DescTheory2.v
theories/DescTheory3.v
theories/PropsDesc.v
theories/PropsDesc2.v
theories/PropsPolyRep5.v
theories/CosTheory.v
theories/CosCode.v
theories/PropsCos.v
theories/PropsPolymat4.v
theories/PropsSearch2.v
theories/PropsTracker4.v
theories/ModelTools.v
theories/PropsProduct.v
theories/PropsSubstr.v
theories/PropsStats.v
theories/PropsValid.v
theories/PropsValid2.v
theories/PropsLists.v
theories/ModelText.v
theories/PropsText.v
theories/PropsMatrix3.v
theories/PropsWords.v
theories/BurauThree.v
theories/PropsThree.v
theories/TLBurau.v
theories/PropsBurau.v
theories/BurauWords.v
theories/BurauKernel.v
theories/PropsBurau2.v
theories/KernelData.v
theories/PropsKernel.v
theories/TorsionFree.v
theories/PropsTorsion.v
theories/ModelFrame.v
theories/PropsFrame.v
theories/ModelSvg.v
theories/PropsSvg.v
theories/PropsSmall.v
theories/BurauStable.v
theories/EmbedTheory.v
theories/PropsStable.v
theories/BurauScalar.v
theories/BurauForm.v
theories/PropsScalar.v
theories/PropsScalar2.v
theories/ModelShow.v
theories/PropsShow.v
theories/PropsShow2.v
theories/PropsShow3.v
theories/SymWords.v
theories/PropsPower.v
theories/PropsPower2.v
theories/StrandRes.v
theories/StrandBlocks.v
theories/PropsBranch.v
theories/PropsBranch2.v
theories/HalfTwist.v
theories/PropsReflect.v
theories/PropsReflect2.v
theories/PropsExhaust.v
theories/PropsSeed.v
theories/ModelOrder.v
theories/PropsOrder.v
theories/PropsDegree.v
theories/PropsMemory.v
theories/PropsSubadd.v
theories/PropsTree.v
theories/PropsLength.v
theories/PropsGeodesic.v
