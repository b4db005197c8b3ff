-Q theories Verif
theories/Spec.v
theories/Factory.v
theories/FactoryProofs.v
theories/FactoryProofs2.v
theories/FactoryProofs3.v
theories/FactoryApi.v
theories/FactoryProps.v
theories/EncSpec.v
theories/EncAmo.v
theories/EncLemmas.v
theories/EncAmoProofs.v
theories/EncCc.v
theories/EncTotProofs.v
theories/EncModProofs.v
theories/EncCn.v
theories/EncCnProofs.v
theories/EncApi.v
theories/EncApiProofs.v
theories/EncPbc.v
theories/EncPbcProofs.v
theories/EncAdderProofs.v
theories/EncMergeProofs.v
theories/EncBinProofs.v
theories/EncNormProofs.v
theories/EncProps.v
theories/Assign.v
theories/NormalForm.v
theories/DnnfSpec.v
theories/DnnfCount.v
theories/Dnnf.v
theories/NfBase.v
theories/NfAssign.v
theories/NfSubst.v
theories/AssignProps.v
theories/NfEnc.v
theories/NfNnf.v
theories/NfCnf.v
theories/NfFun.v
theories/DnnfFun.v
theories/NfTseitin.v
theories/NfPg.v
theories/NfAig.v
theories/Simplify.v
theories/SimpBase.v
theories/SimpProofs.v
theories/SubsTree.v
theories/SubsProofs.v
theories/NfApi.v
theories/NfProps.v
theories/DnnfProps.v
theories/DnnfCompile.v
theories/DnnfCompileProps.v
theories/SimplifyProps.v
theories/Bdd.v
theories/BddTable.v
theories/BddNode.v
theories/BddSem.v
theories/BddQuant.v
theories/BddKernel.v
theories/BddHandles.v
theories/BddApi.v
theories/BddCompile.v
theories/BddCanon.v
theories/BddOps.v
theories/BddQuery.v
theories/BddHist.v
theories/BddPaths.v
theories/BddForm.v
theories/BddEnum.v
theories/BddCount.v
theories/BddPres.v
theories/BddClient.v
theories/BddProps.v
theories/Sat.v
theories/SatInv.v
theories/SatProp.v
theories/SatAna.v
theories/SatMin.v
theories/SatSearch.v
theories/SatAttach.v
theories/SatLoop.v
theories/SatFind.v
theories/SatSolve.v
theories/SatAdd.v
theories/SatState.v
theories/SatSpec.v
theories/SatProps.v
theories/SatApi.v
theories/SatApiInv.v
theories/SatApiPg.v
theories/SatApiAdd.v
theories/SatApiHist.v
theories/SatApiProps.v
theories/Solver.v
theories/ExplainSpec.v
theories/Mus.v
theories/MusProps.v
theories/Optimize.v
theories/OptimizeProps.v
theories/Smus.v
theories/SmusProps.v
theories/PrimeSpec.v
theories/Primes.v
theories/PrimeProps.v
theories/Enum.v
theories/EnumProps.v
theories/EnumThms.v
theories/Queue.v
theories/QueueProps.v
theories/Heap.v
theories/HeapProofs.v
theories/HeapProps.v
theories/BitSet.v
theories/BitSetProps.v
theories/Graph.v
theories/GraphProofs.v
theories/GraphProps.v
theories/Backbone.v
theories/BackboneProps.v
theories/Dimacs.v
theories/DimacsProps.v
theories/Print.v
theories/Drup.v
theories/DrupProofs.v
theories/DrupVerify.v
theories/DrupSound.v
theories/Trace.v
theories/TraceProofs.v
theories/CoreProofs.v
theories/CoreProps.v
theories/PrintSpec.v
theories/PrintLex.v
theories/PrintParse.v
theories/PrintProofs.v
theories/PrintProps.v
theories/MaxSpec.v
theories/MaxSat.v
theories/MaxBase.v
theories/MaxTot.v
theories/MaxAlg.v
theories/MaxLoop.v
theories/MaxBmo.v
theories/MaxWbo.v
theories/MaxSym.v
theories/MaxRun.v
theories/MaxProps.v
theories/MaxApi.v
theories/MaxApiInv.v
theories/MaxApiProps.v
theories/Advanced.v
theories/AdvancedSpec.v
theories/AdvProofs.v
theories/AdvancedProps.v
theories/UnitPropSpec.v
theories/UnitProp.v
theories/UnitPropProofs.v
theories/UnitPropProps.v
theories/QueensSpec.v
theories/Queens.v
theories/QueensProps.v
theories/Wcnf.v
theories/WcnfProps.v
theories/Pigeon.v
theories/PigeonProps.v
theories/Qe.v
theories/QeProps.v
theories/LitSubst.v
theories/LitSubstProps.v
theories/Anonymize.v
theories/AnonymizeProps.v
