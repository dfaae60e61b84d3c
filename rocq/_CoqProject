-Q theories Verif
theories/Amp.v
theories/AmpCost.v
theories/AmpCostEx.v
theories/AmpCriteria.v
theories/AmpEvents.v
theories/AmpEventsEx.v
theories/AmpGrow.v
theories/AmpGrowEx.v
theories/AmpState.v
theories/Archive.v
theories/Base.v
theories/Butcher.v
theories/Chars.v
theories/Choice.v
theories/Comments.v
theories/ComplexField.v
theories/Count.v
theories/CountEx.v
theories/DataFiles.v
theories/Degree.v
theories/DegreeAll.v
theories/Diff.v
theories/DiffR.v
theories/Differential.v
theories/EgClaims.v
theories/EgEvents.v
theories/EgEventsEx.v
theories/EgEventsProof.v
theories/EgEventsWhy.v
theories/EgGeo.v
theories/EgMean.v
theories/EgRefine.v
theories/EgRefineEx.v
theories/EgSeries.v
theories/EgSeriesEx.v
theories/EgZone.v
theories/EgZoneEx.v
theories/Endgame.v
theories/EndgameEx.v
theories/EndgameProof.v
theories/EndgamePs.v
theories/Events.v
theories/EventsEx.v
theories/Expr.v
theories/Heap.v
theories/HeapHomog.v
theories/Hermite.v
theories/HermiteDef.v
theories/Homog.v
theories/HomogForm.v
theories/HomogSys.v
theories/HomogSysEx.v
theories/IniConfig.v
theories/LinProd.v
theories/LinearGamma.v
theories/LinearGammaEx.v
theories/LinearHom.v
theories/LinearPath.v
theories/LinearPathEx.v
theories/LinearSolve.v
theories/LinearSolveEx.v
theories/LinearText.v
theories/LinearTextEx.v
theories/LinearTree.v
theories/LinesOnly.v
theories/Lu.v
theories/LuCheck.v
theories/LuCheckEx.v
theories/MHom.v
theories/MHomPoint.v
theories/MatrixExt.v
theories/Midpath.v
theories/Names.v
theories/Newton.v
theories/NodeOps.v
theories/NodeOpsEx.v
theories/NumLit.v
theories/NumText.v
theories/Observers.v
theories/Options.v
theories/Output.v
theories/Parser.v
theories/ParserEx.v
theories/ParserProof.v
theories/ParserReads.v
theories/ParserSpec.v
theories/Patch.v
theories/PatchPrecision.v
theories/Pencil.v
theories/Permuted.v
theories/Poly.v
theories/Pool.v
theories/PowNode.v
theories/Power.v
theories/PrecTree.v
theories/Precon.v
theories/Predictor.v
theories/PrinterProof.v
theories/RK.v
theories/RKQuad.v
theories/RKTables.v
theories/Random.v
theories/Recorders.v
theories/Serial.v
theories/Settings.v
theories/SimpGraph.v
theories/SimpGraphEx.v
theories/SimpGraphN.v
theories/SimpGraphP.v
theories/SimpNormal.v
theories/SimpSys.v
theories/SimpTerm.v
theories/Simplify.v
theories/Slice.v
theories/SliceEx.v
theories/Slp.v
theories/SlpEx.v
theories/SlpProof.v
theories/SlpRun.v
theories/SolveSetup.v
theories/SolveSetupEx.v
theories/Split.v
theories/StartIndex.v
theories/SysArith.v
theories/SysCache.v
theories/SysCacheEx.v
theories/SysCacheProof.v
theories/SysEx.v
theories/SysParser.v
theories/SysParserEx.v
theories/SysParserProof.v
theories/SysParserSpec.v
theories/SysPrec.v
theories/SysState.v
theories/SysValue.v
theories/SysValueEx.v
theories/SysVars.v
theories/TextSolve.v
theories/TextSolveEx.v
theories/TotalDegree.v
theories/Track.v
theories/TrackEx.v
theories/Trackers.v
theories/Uniform.v
theories/UserStart.v
theories/ZeroDim.v
theories/ZeroDimEx.v
theories/Prop_C01.v
theories/Prop_C02.v
theories/Prop_C03.v
theories/Prop_C04.v
theories/Prop_C05.v
theories/Prop_C06.v
theories/Prop_C07.v
theories/Prop_C08.v
theories/Prop_C09.v
theories/Prop_C10.v
theories/Prop_C11.v
theories/Prop_C12.v
theories/Prop_C13.v
theories/Prop_C14.v
theories/Prop_C15.v
theories/Prop_C16.v
theories/Prop_C17.v
theories/Prop_C18.v
theories/Prop_C19.v
theories/Prop_C20.v
theories/Prop_C21.v
theories/Prop_C22.v
theories/Prop_C23.v
theories/Prop_C24.v
theories/Prop_C25.v
theories/Prop_C26.v
theories/Prop_C27.v
theories/Prop_C28.v
theories/Prop_C29.v
theories/Prop_C30.v
theories/Prop_C31.v
theories/Prop_C32.v
theories/Prop_C33.v
theories/Prop_C34.v
theories/Prop_C35.v
theories/Prop_C36.v
theories/Prop_C37.v
theories/Prop_C38.v
theories/Prop_C39.v
theories/Prop_C40.v
theories/Prop_C41.v
theories/Prop_C42.v
theories/Prop_C43.v
theories/Prop_C44.v
theories/Prop_C45.v
theories/Prop_C46.v
theories/Prop_C47.v
theories/Prop_C48.v
theories/Prop_C49.v
theories/Prop_C50.v
theories/Prop_C51.v
theories/Prop_C52.v
theories/Prop_C53.v
theories/Prop_C54.v
theories/Prop_C55.v
theories/Prop_C56.v
theories/Prop_C57.v
theories/Prop_C58.v
theories/Prop_C59.v
theories/Prop_C60.v
theories/Prop_C61.v
theories/Prop_C62.v
theories/Prop_C63.v
theories/Prop_C64.v
theories/Prop_C65.v
theories/Prop_C66.v
theories/Prop_C67.v
theories/Prop_C68.v
theories/Prop_C69.v
theories/Prop_C70.v
theories/Prop_C71.v
theories/Prop_C72.v
theories/Prop_C73.v
theories/Prop_C74.v
theories/Prop_C75.v
theories/Prop_C76.v
theories/Prop_C77.v
theories/Prop_C78.v
theories/Prop_C79.v
theories/Prop_C80.v
theories/Prop_C81.v
theories/Prop_C82.v
theories/Prop_C83.v
theories/Prop_C84.v
theories/Prop_C85.v
theories/Prop_C86.v
theories/Prop_C87.v
theories/Prop_C88.v
theories/Prop_C89.v
theories/Prop_C90.v
theories/Prop_C91.v
theories/Prop_C92.v
theories/Prop_C93.v
theories/Prop_C94.v
theories/Prop_C95.v
theories/Prop_C96.v
theories/Prop_C97.v
theories/Prop_C98.v
theories/Prop_C99.v
