-Q theories Verif
theories/Num.v
theories/Vec.v
theories/Heap.v
theories/Mesh.v
theories/Construct.v
theories/Spec.v
theories/EditSpec.v
theories/EditRun.v
theories/Orbit.v
theories/Rings.v
theories/Exec.v
theories/Diamond.v
theories/Flip.v
theories/Split.v
theories/SplitV.v
theories/Remove.v
theories/Collapse.v
theories/CollapseV.v
theories/EditFx.v
theories/Edits.v
theories/CollapseSpec.v
theories/CollapseIff.v
theories/Seqs.v
theories/Refuse.v
theories/Queries.v
theories/BuildSpec.v
theories/BuildTri.v
theories/BuildOpen.v
theories/BuildClose.v
theories/BuildRing.v
theories/BuildFan.v
theories/BuildTop.v
theories/Weld.v
theories/Built.v
theories/Clone.v
theories/NumInst.v
theories/BuildProps.v
theories/Witness.v
theories/Refute.v
theories/EditProps.v
theories/Examples.v
theories/PropBuild.v
theories/PropQuery.v
theories/PropEdit.v
theories/VecN.v
theories/Bounds.v
theories/GeomSpec.v
theories/VecR.v
theories/BoundsR.v
theories/Bvh.v
theories/BvhSpec.v
theories/BvhR.v
theories/Measure.v
theories/MeasureR.v
theories/MeasureM.v
theories/Progress.v
theories/ProgressP.v
theories/Features.v
theories/FeaturesR.v
theories/Indices.v
theories/Hausdorff.v
theories/HausdorffW.v
theories/ExamplesR.v
theories/GeomW.v
theories/PropGeom.v
theories/CollapseFlip.v
theories/CollapseFlipW.v
theories/PropCollapse.v
theories/Prog.v
theories/ProgP.v
theories/Smooth.v
theories/SmoothSpec.v
theories/SmoothP.v
theories/SmoothD.v
theories/SmoothDn.v
theories/SmoothR.v
theories/SmoothW.v
theories/SmoothEx.v
theories/Lapl.v
theories/LaplSpec.v
theories/LaplP.v
theories/LaplM.v
theories/FilterSpec.v
theories/SmoothF.v
theories/RegTet.v
theories/Fair.v
theories/FairW.v
theories/PropSmooth.v
theories/Wp.v
theories/RemeshSpec.v
theories/Simplify.v
theories/SimplifyP.v
theories/SimplifyT.v
theories/Remesh.v
theories/RemeshP.v
theories/RemeshR.v
theories/RemeshW.v
theories/RemeshX.v
theories/PropRemesh.v
theories/Fill.v
theories/FillT.v
theories/FillD.v
theories/FillO.v
theories/FillQ.v
theories/FillW.v
theories/FillSpec.v
theories/FillP.v
theories/FillE.v
theories/FillR.v
theories/PropFill.v
theories/Io.v
theories/IoSpec.v
theories/IoP.v
theories/IoW.v
theories/PropIo.v
theories/Curv.v
theories/CurvN.v
theories/Means.v
theories/CurvW.v
theories/PropCurv.v
theories/DenSpec.v
theories/DenoiseF.v
theories/DenoiseR.v
theories/DenoiseT.v
theories/PropDen.v
theories/LinR.v
theories/L0.v
theories/L0Spec.v
theories/L0P.v
theories/L0T.v
theories/L0W.v
theories/PropL0.v
theories/Qem.v
theories/QemP.v
theories/QemSpec.v
theories/QemR.v
theories/QemM.v
theories/QemT.v
theories/QemC.v
theories/QemW.v
theories/QemX.v
theories/PropQem.v
theories/Front.v
theories/FrontF.v
theories/FrontM.v
theories/FrontG.v
theories/FrontA.v
theories/FrontO.v
theories/FrontJ.v
theories/FrontR.v
theories/FrontI.v
theories/FrontS.v
theories/FrontSpec.v
theories/FrontE.v
theories/FrontW.v
theories/FrontC.v
theories/FrontD.v
theories/FrontX.v
theories/PropFront.v
theories/Tensor.v
theories/TensorSpec.v
theories/TensorR.v
theories/TensorM.v
theories/TensorS.v
theories/TensorW.v
theories/PropTensor.v
theories/Hks.v
theories/HksSpec.v
theories/HksR.v
theories/HksP.v
theories/HksT.v
theories/HksF.v
theories/CotPsd.v
theories/CotW.v
theories/HksW.v
theories/PropHks.v
theories/Deriv.v
theories/DerivSpec.v
theories/DerivR.v
theories/DerivM.v
theories/DerivT.v
theories/DerivO.v
theories/DerivW.v
theories/PropDeriv.v
theories/Feat.v
theories/FeatSpec.v
theories/FeatR.v
theories/FeatM.v
theories/FeatS.v
theories/FeatE.v
theories/FeatO.v
theories/FeatW.v
theories/PropFeat.v
theories/Gmm.v
theories/GmmSpec.v
theories/GmmP.v
theories/Icp.v
theories/IcpSpec.v
theories/IcpP.v
theories/IcpW.v
theories/PropMix.v
theories/Repair.v
theories/RepairSpec.v
theories/RepairP.v
theories/RepairW.v
theories/PropRepair.v
theories/Coherent.v
theories/PatchSpec.v
theories/PatchP.v
theories/DescrSpec.v
theories/DescrP.v
theories/SoftP.v
theories/MoveSpec.v
theories/MoveP.v
theories/ReadOnly.v
theories/CoherSpec.v
theories/CoherentP.v
theories/CoherentR.v
theories/PropCoherent.v
theories/LapGrad.v
theories/Relax.v
theories/RelaxSpec.v
theories/RelaxA.v
theories/RelaxP.v
theories/RelaxQ.v
theories/RelaxR.v
theories/RelaxW.v
theories/PropRelax.v
theories/AreaSpec.v
theories/AreaGrad.v
theories/AreaW.v
theories/PropArea.v
theories/Safe.v
theories/RelaxS.v
theories/Whole.v
theories/WholeSpec.v
theories/WholeP.v
theories/RelaxB.v
theories/WholeR.v
theories/PropWhole.v
theories/RigidSpec.v
theories/RigidM.v
theories/RigidE.v
theories/RigidF.v
theories/RigidS.v
theories/RigidP.v
theories/RigidR.v
theories/RigidX.v
theories/PropRigid.v
theories/RigidQ.v
theories/RigidI.v
theories/RigidG.v
theories/RigidH.v
theories/RigidY.v
theories/FlatSpec.v
theories/FlatF.v
theories/FlatP.v
theories/FlatE.v
theories/CutSpec.v
theories/CutF.v
theories/CutP.v
theories/CutE.v
theories/PropFlat.v
theories/ScaleSpec.v
theories/ScaleM.v
theories/ScaleE.v
theories/ScaleF.v
theories/ScaleG.v
theories/ScaleH.v
theories/ScaleS.v
theories/ScaleP.v
theories/ScaleR.v
theories/ScaleC.v
theories/PropScale.v
theories/Degen.v
theories/OrderSpec.v
theories/Order.v
theories/OrderE.v
theories/PropOrder.v
theories/OrderM.v
theories/OrderX.v
theories/OrderS.v
theories/OrderT.v
theories/OrderD.v
theories/OrderY.v
theories/OrderO.v
theories/OrderN.v
