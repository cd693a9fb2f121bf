-Q theories Verif
theories/CanonModel.v
theories/CanonSpec.v
theories/CanonProofs.v
theories/CanonProofs2.v
theories/MomentModel.v
theories/MomentSpec.v
theories/MomentProofs.v
theories/PropCanon.v
theories/ScenarioModel.v
theories/ScenarioSpec.v
theories/ScenarioProofs.v
theories/PropScenario.v
theories/SymModel.v
theories/SymSpec.v
theories/SymProofs.v
theories/PropSym.v
theories/FactorModel.v
theories/FactorSpec.v
theories/UniqueProofs.v
theories/FactorProofs.v
theories/PropFactor.v
theories/KnowModel.v
theories/KnowSpec.v
theories/KnowProofs.v
theories/PropKnow.v
theories/MargModel.v
theories/QcSum.v
theories/MargProofs.v
theories/MargProofs2.v
theories/PropMarg.v
theories/OrbitModel.v
theories/OrbitSpec.v
theories/OrbitProofs.v
theories/OrbitProofs2.v
theories/ColumnModel.v
theories/ColumnSpec.v
theories/ColumnProofs.v
theories/ColumnProofs2.v
theories/ColumnProofs3.v
theories/PropOrbit.v
theories/CliqueModel.v
theories/CliqueSpec.v
theories/CliqueProofs.v
theories/PropClique.v
theories/MemoModel.v
theories/MemoSpec.v
theories/MemoProofs.v
theories/PropMemo.v
theories/LPModel.v
theories/LPSpec.v
theories/LPProofs.v
theories/LPProofs2.v
theories/LPProofs3.v
theories/LPProofs4.v
theories/LPProofs5.v
theories/LPProofs6.v
theories/LPProofs7.v
theories/LPProofs8.v
theories/LPSpec2.v
theories/LPProofs9.v
theories/LPProofs10.v
theories/PropLP.v
theories/QcArith.v
theories/Farkas.v
theories/Duality.v
theories/LPSolveModel.v
theories/LPSolveSpec.v
theories/LPSolveProofs.v
theories/LPSolveProofs2.v
theories/LPSolveProofs3.v
theories/LPSolveProofs4.v
theories/LPSolveProofs5.v
theories/PropSolve.v
theories/SearchModel.v
theories/SearchProofs.v
theories/PropSearch.v
theories/ProgramModel.v
theories/ProgramSpec.v
theories/ProgramProofs.v
theories/ProgramProofs2.v
theories/ProgramProofs3.v
theories/ProgramLP.v
theories/ProgramLPProofs.v
theories/PropProgram.v
theories/SDPSolveModel.v
theories/SDPSolveSpec.v
theories/PSD.v
theories/SDPSolveProofs.v
theories/SDPSolveProofs2.v
theories/SDPSolveProofs3.v
theories/SDPSolveProofs4.v
theories/SDPSolveProofs5.v
theories/PropSDP.v
theories/SdpaModel.v
theories/SdpaSpec.v
theories/SdpaProofs.v
theories/SdpaProofs2.v
theories/SdpaProofs3.v
theories/SdpaProofs4.v
theories/PropSdpa.v
theories/LPWriteModel.v
theories/LPWriteSpec.v
theories/LPWriteProofs.v
theories/LPWriteProofs2.v
theories/LPWriteProofs3.v
theories/LPWriteProofs4.v
theories/LPWriteProofs5.v
theories/LPWriteProofs6.v
theories/PropWrite.v
theories/NormModel.v
theories/NormSpec.v
theories/NormProofs.v
theories/NormProofs2.v
theories/NormProofs3.v
theories/PropNorm.v
theories/ColsModel.v
theories/ColsSpec.v
theories/ColsProofs.v
theories/ColsProofs2.v
theories/ColsProofs3.v
theories/ColsProofs4.v
theories/ColsProofs5.v
theories/ColsProofs6.v
theories/ColsText.v
theories/PropCols.v
theories/PhysModel.v
theories/PhysSpec.v
theories/PhysProofs.v
theories/PhysProofs2.v
theories/HermModel.v
theories/HermProofs.v
theories/QuantumSpec.v
theories/QuantumProofs.v
theories/PropPhys.v
theories/NameModel.v
theories/NameSpec.v
theories/NameProofs.v
theories/NameProofs2.v
theories/NameProofs3.v
theories/NameProofs4.v
theories/NameProofs5.v
theories/NameProofs6.v
theories/NameProofs7.v
theories/NameProofs8.v
theories/NameProofs9.v
theories/PropName.v
theories/DagModel.v
theories/DagSpec.v
theories/DagProofs.v
theories/DagProofs2.v
theories/PropDag.v
theories/CausalSpec.v
theories/MeanProofs.v
theories/InflatedSpec.v
theories/ClassicalProofs.v
theories/ClassicalProofs2.v
theories/LPMomentModel.v
theories/LPMomentProofs.v
theories/ColumnsFacts.v
theories/LPMomentProofs2.v
theories/SoundProofs.v
theories/SoundProofs2.v
theories/GlueProofs.v
theories/GenerateProofs.v
theories/GenerateProofs2.v
theories/SoundProofs3.v
theories/SoundProofs4.v
theories/SoundProofs5.v
theories/SoundProofs6.v
theories/SoundProofs7.v
theories/PropSound.v
theories/QInflationSpec.v
theories/QModelSpec.v
theories/SDPMomentModel.v
theories/QMomentProofs.v
theories/QMomentProofs2.v
theories/QMomentProofs3.v
theories/QMomentProofs4.v
theories/QMomentProofs5.v
theories/QMomentProofs6.v
theories/QMomentProofs7.v
theories/SDPRunSpec.v
theories/QMomentLengths.v
theories/QMomentProofs8.v
theories/QMomentProofs9.v
theories/QMomentProofs10.v
theories/QMomentProofs11.v
theories/QMomentProofs12.v
theories/QMomentProofs13.v
theories/QMomentProofs14.v
theories/PropSoundSDP.v
theories/ClassicalMoments.v
theories/QModelProofs.v
theories/QModelProofs2.v
theories/QModelProofs3.v
theories/QModelProofs4.v
theories/QModelProofs5.v
theories/QModelProofs6.v
theories/QModelProofs7.v
theories/SupportSpec.v
theories/SupportProofs.v
theories/SupportProofs2.v
theories/SupportProofs3.v
theories/SupportProofs4.v
theories/SupportProofs5.v
theories/SupportSDPSpec.v
theories/SupportProofs6.v
theories/SupportProofs7.v
theories/PropSupportSDP.v
theories/PropSupport.v
theories/CertModel.v
theories/CertSpec.v
theories/CertProofs.v
theories/CertProofs2.v
theories/CertProofs3.v
theories/CertProofs4.v
theories/CertProofs5.v
theories/CertProofs6.v
theories/PropCert.v
theories/PropCertSDP.v
theories/LPDictModel.v
theories/LPDictSpec.v
theories/LPDictProofs.v
theories/PropDict.v
theories/MatModel.v
theories/MatSpec.v
theories/PropMat.v
theories/CsvModel.v
theories/CsvSpec.v
theories/PropCsv.v
theories/FactCondModel.v
theories/FactCondSpec.v
theories/FactCondProofs.v
theories/FactCondProofs2.v
theories/PropFactCond.v
theories/NameLPModel.v
theories/NameLPSpec.v
theories/NameLPProofs.v
theories/NameLPProofs2.v
theories/NameLPProofs3.v
theories/PropNameLP.v
theories/PropBounds.v
theories/ArgsModel.v
theories/ArgsProofs.v
theories/PropArgs.v
theories/ResetModel.v
theories/PropReset.v
theories/PropSteps.v
theories/PropOrder.v
theories/PropValue.v
theories/PropMode.v
theories/FileModel.v
theories/PropFile.v
theories/PropReduce.v
