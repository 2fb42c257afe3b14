-Q theories Verif

theories/AccFacts.v
theories/Agree.v
theories/AlgebraCircuit.v
theories/AlgebraSpec.v
theories/ArgueCase.v
theories/ArgueFacts.v
theories/ArgueProject.v
theories/ArgueSpec.v
theories/ArgueThms.v
theories/ArithFacts.v
theories/ArithModel.v
theories/ArithSpec.v
theories/ArithThms.v
theories/AteFacts.v
theories/AteLoop.v
theories/AteSpec.v
theories/AteSteps.v
theories/AteTwist.v
theories/Attack.v
theories/BFFacts.v
theories/BFSpec.v
theories/Base.v
theories/CircuitFacts.v
theories/CircuitModel.v
theories/CircuitSpec.v
theories/CompileFacts.v
theories/CompileSpec.v
theories/Completeness.v
theories/CreateCase.v
theories/CreateFacts.v
theories/CreateMessages.v
theories/CreateModel.v
theories/CreateOpen.v
theories/CreateProject.v
theories/CreateSpec.v
theories/CreateThms.v
theories/CreateValues.v
theories/CurveFacts.v
theories/CurveLaw.v
theories/CurveLimbs.v
theories/CurveModel.v
theories/CurveOrder.v
theories/CurveSpec.v
theories/CurveTimes.v
theories/CycleFacts.v
theories/DomainFacts.v
theories/DomainModel.v
theories/DomainSpec.v
theories/EntryFacts.v
theories/EntryModel.v
theories/EntrySpec.v
theories/FftFacts.v
theories/Field.v
theories/FieldClaims.v
theories/FieldFacts.v
theories/FinalExp.v
theories/Forge.v
theories/ForgeCase.v
theories/ForgeColumns.v
theories/ForgeSpec.v
theories/ForgeThms.v
theories/Fq2Root.v
theories/G1Case.v
theories/G1Chain.v
theories/G1Code.v
theories/G1Group.v
theories/G2Group.v
theories/GraphCase.v
theories/GraphFacts.v
theories/GraphModel.v
theories/GraphProject.v
theories/GraphSpec.v
theories/GraphThms.v
theories/GtFacts.v
theories/Halo2Model.v
theories/HonestFacts.v
theories/IopAccept.v
theories/IopClaims.v
theories/IopCoeff.v
theories/IopComplete.v
theories/IopDegree.v
theories/IopFull.v
theories/IopHonest.v
theories/IopKey.v
theories/IopLagrange.v
theories/IopMain.v
theories/IopModel.v
theories/IopPoly.v
theories/IopProject.v
theories/IopRows.v
theories/IopSound.v
theories/IopSpec.v
theories/IopTotal.v
theories/KeySize.v
theories/KeygenFacts.v
theories/KzgFacts.v
theories/KzgModel.v
theories/LayoutFacts.v
theories/LimbBytes.v
theories/LimbConst.v
theories/LimbFacts.v
theories/LimbField.v
theories/LimbModel.v
theories/LimbSpec.v
theories/ListFacts.v
theories/LocalSound.v
theories/MillerFacts.v
theories/Moduli.v
theories/MultiexpFacts.v
theories/PairingModel.v
theories/ParamsFacts.v
theories/PermClaims.v
theories/PermFacts.v
theories/PermModel.v
theories/PermSpec.v
theories/PiecesFacts.v
theories/PkFacts.v
theories/PlannerFacts.v
theories/PlannerSpec.v
theories/PocklingtonZ.v
theories/PointFacts.v
theories/PolyFacts.v
theories/PowerFacts.v
theories/Prop_Algebra.v
theories/Prop_Argue.v
theories/Prop_Arith.v
theories/Prop_Ate.v
theories/Prop_Circuit.v
theories/Prop_Compile.v
theories/Prop_Create.v
theories/Prop_Curve.v
theories/Prop_Entry.v
theories/Prop_Field.v
theories/Prop_Forge.v
theories/Prop_Graph.v
theories/Prop_Iop.v
theories/Prop_Pairing.v
theories/Prop_Perm.v
theories/Prop_Planner.v
theories/Prop_Repair.v
theories/Prop_Run.v
theories/Prop_Selector.v
theories/Prop_Serde.v
theories/Prop_Shplonk.v
theories/Prop_Size.v
theories/Prop_Sound.v
theories/Prop_Tower.v
theories/Prop_Trace.v
theories/Prop_Verifier.v
theories/ProverFacts.v
theories/ProverModel.v
theories/ProverSpec.v
theories/QuotientFacts.v
theories/RepairFacts.v
theories/RepairSpec.v
theories/Repaired.v
theories/RepairedHonest.v
theories/RootFacts.v
theories/RunKey.v
theories/SelectorClaims.v
theories/SelectorFacts.v
theories/SelectorMain.v
theories/SelectorModel.v
theories/SelectorSpec.v
theories/SerdeFacts.v
theories/SerdeModel.v
theories/SerdeSpec.v
theories/ShplonkComplete.v
theories/ShplonkForge.v
theories/ShplonkModel.v
theories/ShplonkSets.v
theories/ShplonkSound.v
theories/ShplonkSpec.v
theories/ShplonkThms.v
theories/ShplonkVerify.v
theories/SortFacts.v
theories/SoundSpec.v
theories/SubstFacts.v
theories/TowerFacts.v
theories/TowerFq.v
theories/TowerFrob.v
theories/TowerLimbs.v
theories/TowerModel.v
theories/TowerSpec.v
theories/TraceSpec.v
theories/TranscriptFacts.v
theories/TranscriptModel.v
theories/TransformFacts.v
theories/VMCompile.v
theories/VMInv.v
theories/VMModel.v
theories/VMSim.v
theories/VMTrace.v
theories/VerifierBind.v
theories/VerifierCases.v
theories/VerifierFacts.v
theories/VerifierModel.v
theories/VerifierProject.v
theories/VerifierSpec.v
theories/VerifierThms.v
theories/VerifierTotal.v
theories/VkFacts.v
theories/VkModel.v
theories/VkReject.v
theories/VkSpec.v
theories/WitnessFacts.v
theories/XiChain.v
