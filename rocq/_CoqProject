-Q theories Verif
theories/Itv.v
theories/Arith.v
theories/Tube.v
theories/TubeSpec.v
theories/TubeFacts.v
theories/TubeOps.v
theories/TubeOpsFacts.v
theories/TubeOpsFacts2.v
theories/TubeQueries.v
theories/TubeQueries2.v
theories/TubeCtc.v
theories/Concrete.v
theories/PropsTube.v
theories/DynSpec.v
theories/CtcDeriv.v
theories/CtcDerivFacts.v
theories/PropsDyn.v
theories/CtcEval.v
theories/CtcEvalFacts.v
theories/CtcEvalFronts.v
theories/CtcEvalBody.v
theories/PropsEval.v
theories/CtcDelay.v
theories/PropsDyn2.v
theories/Static.v
theories/PropsStatic.v
theories/PropsPolar.v
theories/CN.v
theories/PropsCN.v
theories/Hash.v
theories/PropsHash.v
theories/Integral.v
theories/PropsIntegral.v
theories/Tree.v
theories/PropsTree.v
theories/PropsTreeInt.v
theories/PropsTreeEval.v
theories/Trajectory.v
theories/TrajFacts.v
theories/PropsTraj.v
theories/PropsTrajArith.v
theories/PropsTrajDiff.v
theories/TrajMem.v
theories/PropsTrajMem.v
theories/AddData.v
theories/PropsAddData.v
theories/Double.v
theories/Serialize.v
theories/PropsSerialize.v
theories/PropsSerializeTube.v
theories/Sivia.v
theories/PropsSivia.v
theories/PropsSiviaTerm.v
theories/PropsSiviaEx.v
theories/Paving.v
theories/PropsPaving.v
theories/PropsPaving2.v
theories/PropsPaving3.v
theories/PropsPaving4.v
theories/Separators.v
theories/PropsSep.v
theories/PropsSep2.v
theories/Geometry.v
theories/PropsGeom.v
theories/PropsGeom2.v
theories/PropsGeom3.v
theories/PropsPolar2.v
theories/PolarE.v
theories/SepPolar.v
theories/PropsSepPolar.v
theories/Winding.v
theories/InPolygon.v
theories/PropsInPolygon.v
theories/PropsHull.v
theories/Codac2.v
theories/PropsTDomain.v
theories/PropsTube2.v
theories/PropsAssign2.v
theories/Octa.v
theories/PropsAction.v
theories/Codac2Box.v
theories/PropsBox2.v
theories/PropsPav2.v
theories/Thick.v
theories/PropsThickBool.v
theories/PropsThickItv.v
theories/PropsThickBox.v
theories/ThickPav.v
theories/PropsThickPav.v
theories/ThickDisk.v
theories/PropsThickDisk.v
theories/TPlane.v
theories/PropsTPlane.v
theories/Picard.v
theories/PicardFacts.v
theories/PropsPicard.v
theories/PropsPicard2.v
theories/PropsPicard3.v
theories/TubePaving.v
theories/PropsTubePaving.v
theories/Linobs.v
theories/LinobsFacts.v
theories/PropsLinobs.v
theories/PropsLinobs2.v
theories/PolyArith.v
theories/PropsPolyArith.v
theories/PropsPolyInter.v
theories/PolySimp.v
theories/PropsPolySimp.v
theories/PropsPolyFast.v
theories/Codac2Contains.v
theories/PropsContains2.v
theories/ContainsFloat.v
theories/PropsContainsFloat.v
theories/SepProj.v
theories/PropsSepProj.v
theories/PropsSepProj2.v
theories/PSet.v
theories/PropsPSet.v
theories/PropsPSet2.v
theories/Lohner.v
theories/LohnerFacts.v
theories/LohnerStep.v
theories/PropsLohner.v
theories/LohnerQ.v
theories/PropsLohner2.v
theories/PropsLohner3.v
theories/CtcFunction.v
theories/PropsCtcFunction.v
theories/PolySynth.v
theories/PropsPolySynth.v
theories/DegTurn.v
theories/Degree.v
theories/DegTile.v
theories/DegEdge.v
theories/PropsDegree.v
theories/PropsDegree2.v
theories/PropsDegree3.v
theories/Linobs2.v
theories/PropsLinobs3.v
theories/PropsLinobs4.v
theories/TrajVec.v
theories/PropsTrajVec.v
theories/Convert.v
theories/ConvertFacts.v
theories/PropsConvert.v
theories/TFun.v
theories/PropsTFun.v
theories/CNVar.v
theories/PropsCNVar.v
theories/TFunCons.v
theories/PropsTFunCons.v
theories/TubeVecOps.v
theories/PropsTubeVecOps.v
theories/VecInvert.v
theories/PropsVecInvert.v
theories/HeapTube.v
theories/HeapTubeFacts.v
theories/PropsHeapTube.v
theories/HeapTree.v
theories/HeapTreeFacts.v
theories/PropsHeapTree.v
theories/SepHull.v
theories/PropsSepHull.v
theories/Measure.v
theories/PropsMeasure.v
theories/PropsDiam.v
theories/DomVolume.v
theories/PropsDomVolume.v
theories/PropsDomNet.v
theories/Wall.v
theories/PropsWall.v
theories/TFunExpr.v
theories/PropsTFunExpr.v
theories/RandTraj.v
theories/PropsRandTraj.v
theories/SepPolarXYT.v
theories/PropsSepXYT.v
theories/ColorMap.v
theories/PropsColorMap.v
theories/ColorRev.v
theories/PropsColorRev.v
