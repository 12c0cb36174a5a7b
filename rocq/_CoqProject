-Q theories Verif
theories/Prelude.v
theories/Shape.v
theories/ShapeSpec.v
theories/ShapeProofs.v
theories/ShapeProofs2.v
theories/ShapeProofs3.v
theories/ShapeUniq.v
theories/Properties_Shape.v
theories/Scalar.v
theories/Flt.v
theories/RInst.v
theories/Geo2.v
theories/Geo3.v
theories/Misc.v
theories/Simplify.v
theories/GeoSpec.v
theories/DistR.v
theories/Rdp1.v
theories/FltOrd.v
theories/Rdp2.v
theories/Rdp3.v
theories/Properties_Rdp.v
theories/Properties_Rdp2.v
theories/VwSpec.v
theories/VwProofs.v
theories/VwProofs2.v
theories/Properties_Vw.v
theories/Vw3.v
theories/Properties_Vw2.v
theories/BoxSpec.v
theories/BoxProofs.v
theories/Properties_Box.v
theories/IsectProofs.v
theories/Properties_Isect.v
theories/Properties_Misc.v
theories/Discretize.v
theories/DiscSpec.v
theories/DiscProofs.v
theories/Properties_Disc.v
theories/Parabola.v
theories/ParaSpec.v
theories/ParaProofs.v
theories/Properties_Para.v
theories/Obj.v
theories/Properties_Obj.v
theories/HullSpec.v
theories/HullGeo.v
theories/Hull.v
theories/GrahamProofs.v
theories/GrahamProofs2.v
theories/GrahamProofs3.v
theories/HullUniq.v
theories/GiftProofs.v
theories/GiftProofs2.v
theories/HullAny.v
theories/IndexedProofs.v
theories/WoProofs.v
theories/ContainProofs.v
theories/ContainExact.v
theories/HullMisc.v
theories/HullDup.v
theories/HullMisc2.v
theories/HullPar.v
theories/HullMerge.v
theories/HullMerge2.v
theories/HullMerge3.v
theories/Properties_Hull.v
theories/Properties_Hull2.v
theories/Properties_Hull3.v
theories/HullSim.v
theories/HullSim2.v
theories/FloatSpec.v
theories/FloatLink.v
theories/FloatGrid.v
theories/FloatHull.v
theories/Properties_Float.v
theories/FloatRound.v
theories/FloatVw.v
theories/FloatRdp.v
theories/Properties_Float2.v
theories/FloatIsect.v
theories/Properties_Isect2.v
theories/FloatPoint.v
theories/FloatSelf.v
theories/Properties_Point2.v
theories/Properties_Self2.v
theories/Sweep.v
theories/SweepMap.v
theories/SweepProofs.v
theories/SweepCand.v
theories/SweepLoop.v
theories/SweepLoop2.v
theories/SweepIdx.v
theories/SweepRun.v
theories/SweepPts.v
theories/SweepFin.v
theories/SweepSpec.v
theories/SweepGeo.v
theories/SweepComplete.v
theories/SweepComplete2.v
theories/SweepSpecLink.v
theories/QInst.v
theories/SweepHom.v
theories/Properties_Sweep.v
theories/Properties_Sweep2.v
theories/SweepAny.v
theories/SweepFlt.v
theories/SweepFlt2.v
theories/SweepGrid.v
theories/SweepQuiet.v
theories/SweepTerm.v
theories/FloatBound.v
theories/SweepTree.v
theories/BTree.v
theories/BTreeProofs.v
theories/SweepMapEq.v
theories/SweepCons.v
theories/SweepFront.v
theories/SweepAny2.v
theories/SweepAny3.v
theories/SweepAny4.v
theories/Properties_Sweep3.v
theories/Properties_Sweep4.v
theories/Properties_Sweep5.v
theories/SweepExact.v
theories/SweepSym.v
theories/SweepSym2.v
theories/SweepSym3.v
theories/Properties_Sweep6.v
theories/HullThree.v
theories/Properties_Hull4.v
theories/FloatBox.v
theories/Properties_Box2.v
theories/FloatAffine.v
theories/FloatDisc.v
theories/Properties_Disc2.v
theories/Properties_Box3.v
theories/Properties_Isect3.v
theories/FloatPar.v
theories/AtanSpec.v
theories/AtanSep.v
theories/AtanBad.v
theories/Properties_Atan.v
theories/FloatRay.v
theories/Properties_Ray.v
theories/IsectSym.v
theories/Properties_Isect4.v
theories/RdpRev.v
theories/Properties_Rdp3.v
theories/VwRev.v
theories/Properties_Vw3.v
theories/DiscSym.v
theories/Properties_Disc3.v
theories/HullAff.v
theories/Properties_Hull5.v
theories/ParaSym.v
theories/Properties_Para2.v
theories/Properties_Dist.v
theories/ParaTree.v
theories/Properties_Para3.v
theories/RdpRefine.v
theories/VwRefine.v
theories/Properties_Denser.v
theories/Properties_Box4.v
theories/DenserIsect.v
theories/Properties_Denser2.v
theories/FloatDist.v
theories/Properties_FloatDist.v
theories/FloatVal.v
theories/FloatRdp2.v
theories/Properties_FloatDist2.v
theories/Properties_FloatDist3.v
theories/Properties_FloatVw2.v
