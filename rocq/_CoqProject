-Q theories Verif
theories/Base.v
theories/Graph.v
theories/WeightManager.v
theories/Spec.v
theories/InstSpec.v
theories/WMProofs.v
theories/WMProofs2.v
theories/WMProofs3.v
theories/WMProofs4.v
theories/SpecDec.v
theories/WMProofs5.v
theories/Prop_WM.v
theories/Heuristics.v
theories/HeurProofs.v
theories/HeurProofs2.v
theories/HeurProofs3.v
theories/Prop_NI.v
theories/TwoOpt.v
theories/TwoOptProofs.v
theories/TwoOptProofs2.v
theories/TwoOptProofs3.v
theories/Result.v
theories/ResultProofs.v
theories/Prop_TwoOpt.v
theories/Prop_TwoOpt2.v
theories/Linear.v
theories/Formulation.v
theories/FormProofs.v
theories/ArcSpec.v
theories/FormProofs2.v
theories/FormProofs3.v
theories/Separation.v
theories/SepSpec.v
theories/SepProofs.v
theories/SepProofs2.v
theories/SepProofs3.v
theories/FormProofs4.v
theories/FormProofs5.v
theories/FormProofs6.v
theories/FormProofs7.v
theories/FormProofs8.v
theories/Prop_Lin.v
theories/Prop_Form.v
theories/Prop_Sep.v
theories/Queue.v
theories/QueueSpec.v
theories/QueueProofs.v
theories/Prop_Queue.v
theories/BranchCut.v
theories/BCSpec.v
theories/BCProofs.v
theories/BCProofs2.v
theories/BCProofs3.v
theories/BCProofs4.v
theories/BCProofs5.v
theories/BCProofs6.v
theories/BCProofs7.v
theories/Prop_BC.v
theories/BCProofs8.v
theories/NearSpec.v
theories/NearBase.v
theories/BCProofs9.v
theories/BCProofs10.v
theories/BCProofs11.v
theories/BCProofs12.v
theories/BCProofs13.v
theories/SolveSpec.v
theories/BCRun.v
theories/BCProofs14.v
theories/NodeSpec.v
theories/BCProofs15.v
theories/BCProofs16.v
theories/Prop_BC2.v
theories/BCExamples.v
theories/Prop_BC3.v
theories/Prop_BC4.v
theories/CApi.v
theories/ApiSpec.v
theories/ApiProofs.v
theories/ApiProofs2.v
theories/ApiProofs3.v
theories/Prop_Api.v
theories/Prop_Api2.v
theories/Gomory.v
theories/GomorySpec.v
theories/GomoryProofs.v
theories/GomoryProofs2.v
theories/GomoryProofs3.v
theories/GomoryProofs4.v
theories/GomoryProofs5.v
theories/Prop_GH.v
theories/ExactSpec.v
theories/ExactProofs.v
theories/Prop_Exact.v
theories/TermSpec.v
theories/LoopProofs.v
theories/CutList.v
theories/BCProofs17.v
theories/BCProofs18.v
theories/BCProofs19.v
theories/BCProofs20.v
theories/Prop_Term.v
theories/Prop_Exact2.v
theories/LpModel.v
theories/LpSpec.v
theories/LpProofs.v
theories/LpProofs2.v
theories/LpProofs3.v
theories/LpProofs4.v
theories/LpProofs5.v
theories/LpProofs6.v
theories/LpProofs7.v
theories/Prop_Model.v
theories/Callback.v
theories/CallbackSpec.v
theories/CallbackProofs.v
theories/Prop_Callback.v
theories/FloatBase.v
theories/NumSim.v
theories/NumSim2.v
theories/Resolve.v
theories/Prop_Again.v
theories/Doubles.v
theories/Prop_Float.v
theories/UserSpec.v
theories/UserProofs.v
theories/UserProofs2.v
theories/UserProofs3.v
theories/Prop_User.v
theories/Prop_User2.v
theories/Prop_Assign.v
theories/Micro.v
theories/MicroProofs.v
theories/MicroProofs2.v
theories/Prop_Micro.v
theories/Prop_Fail.v
theories/NearProofs.v
theories/Prop_Near.v
theories/LpBound.v
theories/LpBoundProofs.v
theories/LpBoundProofs2.v
theories/Prop_LpBound.v
theories/PyApi.v
theories/Prop_Py.v
theories/Prop_Assign2.v
theories/LateSpec.v
theories/LateProofs.v
theories/LateProofs2.v
theories/Prop_Late.v
theories/Prop_Deadline.v
theories/PriceSpec.v
theories/PriceProofs.v
theories/PriceProofs2.v
theories/Prop_Price.v
theories/Demo.v
theories/DemoProofs.v
theories/Prop_Demo.v
theories/DemoFrames.v
theories/Bench.v
theories/Prop_Bench.v
theories/Prop_Same.v
theories/Prop_Meta.v
theories/Prop_Same2.v
theories/Prop_Depot.v
theories/Prop_Unique.v
theories/Prop_Codes.v
