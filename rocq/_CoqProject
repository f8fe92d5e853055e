-Q theories Verif

theories/Base.v
theories/BaseLemmas.v
theories/ModelGraph.v
theories/Spec.v
theories/MSepTheory.v
theories/Paths.v
theories/ProofGraph.v
theories/ProofDsep.v
theories/ProofGraph2.v
theories/ProofGraph3.v
theories/PropGraph.v
theories/ModelMixed.v
theories/SpecMixed.v
theories/ProofPDAG.v
theories/ProofPDAG2.v
theories/ProofPDAG3.v
theories/ProofMixed.v
theories/ProofMixed2.v
theories/PropMixed.v
theories/ModelPC.v
theories/SpecPC.v
theories/ProofPC.v
theories/ProofPC2.v
theories/PropPC.v
theories/ModelSep.v
theories/SpecSep.v
theories/ProofSep.v
theories/PropSep.v
theories/ModelPAG.v
theories/SpecPAG.v
theories/ProofPAG.v
theories/ProofPAG2.v
theories/ProofPAGR.v
theories/ProofPAGR2.v
theories/ProofPAGS.v
theories/ProofPAGT.v
theories/ProofPAGM.v
theories/ProofPAGU.v
theories/ProofPAGV.v
theories/ProofPAGW.v
theories/ProofPAGX.v
theories/PropPAG.v
theories/SpecCount.v
theories/ProofCount.v
theories/PropCount.v
theories/ModelCI.v
theories/SpecCI.v
theories/ProofCI.v
theories/ProofCI2.v
theories/PropCI.v
theories/ModelPDS.v
theories/SpecPDS.v
theories/ProofPDS.v
theories/ProofPDS2.v
theories/ProofPDS3.v
theories/ProofPDS4.v
theories/ProofPDS5.v
theories/ProofPDS6.v
theories/PropPDS.v
theories/ModelFCI.v
theories/SpecFCI.v
theories/ProofFCI.v
theories/ProofFCI2.v
theories/ProofFCI3.v
theories/ProofFCI4.v
theories/ProofFCI5.v
theories/ProofFCI6.v
theories/ProofFCI7.v
theories/PropFCI.v
theories/ModelOICD.v
theories/SpecOICD.v
theories/ProofOICD.v
theories/ProofOICD2.v
theories/ProofOICD3.v
theories/PropOICD.v
theories/ModelTS.v
theories/SpecTS.v
theories/ProofTS.v
theories/ProofTS2.v
theories/ProofTS3.v
theories/ProofTS4.v
theories/ProofTS5.v
theories/PropTS.v
theories/ModelPerf.v
theories/SpecPerf.v
theories/ProofPerf.v
theories/ProofPerf2.v
theories/ProofPerf3.v
theories/PropPerf.v
theories/ModelData.v
theories/SpecData.v
theories/ProofData.v
theories/PropData.v
theories/ModelSynth.v
theories/SpecSynth.v
theories/ProofSynth.v
theories/PropSynth.v
theories/ModelExplain.v
theories/SpecExplain.v
theories/ProofExplain.v
theories/PropExplain.v
theories/ModelRAI.v
theories/SpecRAI.v
theories/ProofRAI.v
theories/PropRAI.v
theories/ModelBRAI.v
theories/SpecBRAI.v
theories/ProofBRAI.v
theories/PropBRAI.v
theories/ModelBRAI2.v
theories/SpecBRAI2.v
theories/ProofBRAI2.v
theories/PropBRAI2.v
theories/ModelCMI.v
theories/SpecCMI.v
theories/ProofCMI.v
theories/PropCMI.v
theories/ModelParCorr.v
theories/SpecParCorr.v
theories/ProofParCorr.v
theories/PropParCorr.v
theories/ModelBDeu.v
theories/SpecBDeu.v
theories/ProofBDeu.v
theories/PropBDeu.v
theories/ProofMeek.v
theories/ProofVP.v
theories/PropMeek.v
theories/ModelCLEANN.v
theories/SpecCLEANN.v
theories/ProofCLEANN.v
theories/PropCLEANN.v
theories/LatentTheory.v
theories/SpecLatent.v
theories/ProofLatent.v
theories/PropLatent.v
theories/ProofFCI9.v
theories/PropFCI2.v
theories/ModelLayout.v
theories/SpecLayout.v
theories/ProofLayout.v
theories/ProofLayout2.v
theories/ProofLayout3.v
theories/PropLayout.v
theories/ModelDraw.v
theories/SpecDraw.v
theories/ProofDraw.v
theories/ProofDraw2.v
theories/ProofDraw3.v
theories/PropDraw.v
theories/ProofRun.v
theories/ProofRun2.v
theories/ProofOICD4.v
theories/PropExact.v
theories/ProofFCI8.v
theories/PropCalls.v
theories/ModelReach.v
theories/SpecReach.v
theories/ProofReach.v
theories/PropReach.v
theories/SpecMarkov.v
theories/ProofMarkov.v
theories/ProofMarkov2.v
theories/PropMarkov.v
theories/SpecLinear.v
theories/ProofLinear.v
theories/PropLinear.v
theories/SpecPCCount.v
theories/ProofPCCount.v
theories/PropPCCount.v
theories/SpecBRAI3.v
theories/ProofBRAI3.v
theories/PropBRAI3.v
theories/ProofTS6.v
theories/PropTS2.v
theories/SpecICDCount.v
theories/ProofICDCount.v
theories/PropICDCount.v
theories/SpecDepend.v
theories/ProofDepend.v
theories/PropDepend.v
theories/ProofOICDCount.v
theories/PropOICDCount.v
theories/ProofRAICount.v
theories/PropRAICount.v
theories/PropPipeline.v
theories/ProofBRAICount.v
theories/PropBRAICount.v
theories/ProofTSCount.v
theories/PropTSCount.v
theories/SpecReplay.v
theories/ProofReplay.v
theories/PropReplay.v
theories/SpecCanon.v
theories/ProofCanon.v
theories/ProofCanon2.v
theories/ProofCanon3.v
theories/PropCanon.v
theories/SpecRename.v
theories/ProofRename.v
theories/PropRename.v
theories/PropRAI2.v
theories/SpecRAIStable.v
theories/ProofRAIStable.v
theories/PropRAIStable.v
theories/PropReset.v
theories/SpecIdentify.v
theories/PropIdentify.v
