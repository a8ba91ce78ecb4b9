-Q theories Verif
theories/Base.v
theories/Num.v
theories/Regex.v
theories/Words.v
theories/GTable.v
theories/GCode.v
theories/Line.v
theories/Position.v
theories/Machine.v
theories/BaseFacts.v
theories/RegexFacts.v
theories/WordsSpec.v
theories/WordsProofs.v
theories/WordsProofs2.v
theories/WordOrder.v
theories/PropsWords.v
theories/FinditerFacts.v
theories/LineSpec.v
theories/CommentProofs.v
theories/CleanProofs.v
theories/CleanProofs2.v
theories/PropsLine.v
theories/NumFacts.v
theories/PrintSpec.v
theories/PrintProofs.v
theories/PrintProofs2.v
theories/PropsPrint.v
theories/GCodeSpec.v
theories/GCodeProofs.v
theories/GTableProofs.v
theories/GCodeProofs2.v
theories/PropsGCode.v
theories/BlockSpec.v
theories/BlockProofs.v
theories/LineProofs.v
theories/PropsBlock.v
theories/ArithSpec.v
theories/Float64.v
theories/Ieee.v
theories/PosSpec.v
theories/PosProofs.v
theories/PropsPos.v
theories/ModeSpec.v
theories/ModeProofs.v
theories/PropsMode.v
theories/MachSpec.v
theories/MachProofs.v
theories/MachProofs2.v
theories/MachProofs3.v
theories/PropsMach.v
theories/PropsMach2.v
theories/PropsMach3.v
theories/CannedProofs.v
theories/PropsCanned.v
theories/Transform.v
theories/TransSpec.v
theories/TransProofs.v
theories/TransProofs2.v
theories/PropsTrans.v
theories/SimSpec.v
theories/SimProofs.v
theories/PropsSim.v
theories/DrillSpec.v
theories/DrillProofs.v
theories/DrillProofs2.v
theories/DrillProofs3.v
theories/DrillProofs4.v
theories/PropsDrill.v
theories/Arc.v
theories/ArcSpec.v
theories/ArcProofs.v
theories/ArcProofs2.v
theories/ArcProofs3.v
theories/ArcProofs4.v
theories/ArcProofs5.v
theories/ArcProofs6.v
theories/PropsArc.v
theories/Scripts.v
theories/ScriptsSpec.v
theories/ScriptsProofs.v
theories/ScriptsProofs2.v
theories/ScriptsProofs3.v
theories/PropsScripts.v
theories/ScriptsSpec2.v
theories/ScriptsProofs4.v
theories/ScriptsProofs5.v
theories/PropsScripts2.v
theories/ScriptsSpec3.v
theories/ScriptsProofs6.v
theories/ScriptsProofs7.v
theories/PropsScripts3.v
theories/ScriptsSpec4.v
theories/ScriptsProofs8.v
theories/PropsScripts4.v
theories/LineProofs2.v
theories/ScriptsSpec5.v
theories/ScriptsProofs9.v
theories/ScriptsProofs10.v
theories/PropsScripts5.v
theories/ScriptArgs.v
theories/ScriptArgsSpec.v
theories/ScriptsProofs11.v
theories/PropsScripts6.v
theories/ScriptsSpec6.v
theories/ReadBackProofs.v
theories/ScriptsProofs12.v
theories/ScriptsProofs13.v
theories/ScriptsProofs14.v
theories/PropsScripts7.v
theories/ScriptsSpec7.v
theories/ScriptsProofs15.v
theories/PropsScripts8.v
theories/FloatArc.v
theories/FloatArcSpec.v
theories/FloatArcProofs.v
theories/FloatArcProofs2.v
theories/PropsFloatArc.v
theories/FloatArcSpec2.v
theories/FloatArcProofs3.v
theories/Root64.v
theories/PropsFloatArc2.v
theories/FloatArcProofs4.v
theories/PropsFloatArc3.v
theories/ScriptsSpec8.v
theories/ScriptsProofs16.v
theories/PropsScripts9.v
theories/ScriptsSpec9.v
theories/ScriptsProofs17.v
theories/PropsScripts10.v
theories/PropsScripts11.v
theories/FloatArcSpec3.v
theories/FloatArcProofs5.v
theories/FloatArcProofs6.v
theories/FloatArcProofs7.v
theories/FloatArcProofs8.v
theories/FloatArcProofs9.v
theories/FloatArcProofs10.v
theories/FloatArcProofs11.v
theories/FloatArcProofs12.v
theories/FloatArcProofs13.v
theories/FloatArcProofs14.v
theories/Lib64.v
theories/PropsFloatArc4.v
theories/FloatArcProofs15.v
theories/PropsFloatArc5.v
theories/ScriptsSpec10.v
theories/ScriptsProofs18.v
theories/PropsScripts12.v
theories/ScriptsSpec11.v
theories/ScriptsProofs19.v
theories/ScriptsProofs20.v
theories/PropsScripts13.v
theories/ScriptsSpec12.v
theories/ScriptsProofs21.v
theories/ScriptsProofs22.v
theories/PropsScripts14.v
theories/ScriptsSpec13.v
theories/ScriptsProofs23.v
theories/PropsScripts15.v
theories/Heap.v
theories/HeapProofs.v
theories/HeapProofs2.v
theories/HeapProofs3.v
theories/PropsHeap.v
theories/PropsBlock2.v
theories/PosHeap.v
theories/PropsPos2.v
theories/Build.v
theories/BuildProofs.v
theories/PropsBuild.v
theories/ScriptsSpec14.v
theories/ScriptsProofs24.v
theories/PropsScripts16.v
theories/StopSpec.v
theories/StopProofs.v
theories/PropsStop.v
theories/FuelSpec.v
theories/FuelProofs.v
theories/FuelProofs2.v
theories/FuelProofs3.v
theories/PropsFuel.v
theories/PlaceSpec.v
theories/PlaceProofs.v
theories/PropsPlace.v
theories/AgainProofs.v
theories/AgainProofs2.v
theories/PropsAgain.v
theories/ResendSpec.v
theories/ResendProofs.v
theories/PropsResend.v
theories/SwapSpec.v
theories/SwapProofs.v
theories/SwapProofs2.v
theories/PropsSwap.v
