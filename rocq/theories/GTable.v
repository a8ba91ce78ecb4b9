(** GENERATED by tools/gen_table.py from the text of /repo/src/pygcode/gcodes.py - do not edit.

    The gcode class table: every class statement of gcodes.py lines 140-1357, with the attributes it
    defines itself and its parent. Inherited attributes are resolved in GCode.v. *)
From Coq Require Import String List ZArith QArith Qcanon.
From Verif Require Import Base Num Words.
Import ListNotations.
Open Scope Z_scope.

(** gcodes.py:74-108 MODAL_GROUP_MAP (in increasing group number) *)
Inductive mgroup :=
| MG_motion   (* 1 *)
| MG_plane_selection   (* 2 *)
| MG_distance   (* 3 *)
| MG_arc_ijk_distance   (* 4 *)
| MG_feed_rate_mode   (* 5 *)
| MG_units   (* 6 *)
| MG_cutter_diameter_comp   (* 7 *)
| MG_tool_length_offset   (* 8 *)
| MG_canned_cycles_return   (* 10 *)
| MG_coordinate_system   (* 12 *)
| MG_control_mode   (* 13 *)
| MG_spindle_speed_mode   (* 14 *)
| MG_lathe_diameter   (* 15 *)
| MG_stopping   (* 104 *)
| MG_spindle   (* 107 *)
| MG_coolant   (* 108 *)
| MG_override_switches   (* 109 *)
| MG_user_defined   (* 110 *)
| MG_feed_rate   (* 201 *)
| MG_spindle_speed   (* 202 *)
| MG_tool   (* 203 *).
Definition mgroup_num (g : mgroup) : Z :=
  match g with
  | MG_motion => 1
  | MG_plane_selection => 2
  | MG_distance => 3
  | MG_arc_ijk_distance => 4
  | MG_feed_rate_mode => 5
  | MG_units => 6
  | MG_cutter_diameter_comp => 7
  | MG_tool_length_offset => 8
  | MG_canned_cycles_return => 10
  | MG_coordinate_system => 12
  | MG_control_mode => 13
  | MG_spindle_speed_mode => 14
  | MG_lathe_diameter => 15
  | MG_stopping => 104
  | MG_spindle => 107
  | MG_coolant => 108
  | MG_override_switches => 109
  | MG_user_defined => 110
  | MG_feed_rate => 201
  | MG_spindle_speed => 202
  | MG_tool => 203
  end.
Definition all_mgroups : list mgroup :=
  [MG_motion; MG_plane_selection; MG_distance; MG_arc_ijk_distance; MG_feed_rate_mode; MG_units; MG_cutter_diameter_comp; MG_tool_length_offset; MG_canned_cycles_return; MG_coordinate_system; MG_control_mode; MG_spindle_speed_mode; MG_lathe_diameter; MG_stopping; MG_spindle; MG_coolant; MG_override_switches; MG_user_defined; MG_feed_rate; MG_spindle_speed; MG_tool].

(** The machine mode: one optional entry per modal group (machine.py:293 [modal_groups], a dict
    with default None). A record so that equal modes are equal terms. *)
Record gmap (A : Type) := GMap {
  gm_motion : option A;
  gm_plane_selection : option A;
  gm_distance : option A;
  gm_arc_ijk_distance : option A;
  gm_feed_rate_mode : option A;
  gm_units : option A;
  gm_cutter_diameter_comp : option A;
  gm_tool_length_offset : option A;
  gm_canned_cycles_return : option A;
  gm_coordinate_system : option A;
  gm_control_mode : option A;
  gm_spindle_speed_mode : option A;
  gm_lathe_diameter : option A;
  gm_stopping : option A;
  gm_spindle : option A;
  gm_coolant : option A;
  gm_override_switches : option A;
  gm_user_defined : option A;
  gm_feed_rate : option A;
  gm_spindle_speed : option A;
  gm_tool : option A
}.
Arguments GMap {A}.
Arguments gm_motion {A}.
Arguments gm_plane_selection {A}.
Arguments gm_distance {A}.
Arguments gm_arc_ijk_distance {A}.
Arguments gm_feed_rate_mode {A}.
Arguments gm_units {A}.
Arguments gm_cutter_diameter_comp {A}.
Arguments gm_tool_length_offset {A}.
Arguments gm_canned_cycles_return {A}.
Arguments gm_coordinate_system {A}.
Arguments gm_control_mode {A}.
Arguments gm_spindle_speed_mode {A}.
Arguments gm_lathe_diameter {A}.
Arguments gm_stopping {A}.
Arguments gm_spindle {A}.
Arguments gm_coolant {A}.
Arguments gm_override_switches {A}.
Arguments gm_user_defined {A}.
Arguments gm_feed_rate {A}.
Arguments gm_spindle_speed {A}.
Arguments gm_tool {A}.
Definition gm_empty {A} : gmap A := GMap None None None None None None None None None None None None None None None None None None None None None.
Definition gm_get {A} (m : gmap A) (g : mgroup) : option A :=
  match g with
  | MG_motion => gm_motion m
  | MG_plane_selection => gm_plane_selection m
  | MG_distance => gm_distance m
  | MG_arc_ijk_distance => gm_arc_ijk_distance m
  | MG_feed_rate_mode => gm_feed_rate_mode m
  | MG_units => gm_units m
  | MG_cutter_diameter_comp => gm_cutter_diameter_comp m
  | MG_tool_length_offset => gm_tool_length_offset m
  | MG_canned_cycles_return => gm_canned_cycles_return m
  | MG_coordinate_system => gm_coordinate_system m
  | MG_control_mode => gm_control_mode m
  | MG_spindle_speed_mode => gm_spindle_speed_mode m
  | MG_lathe_diameter => gm_lathe_diameter m
  | MG_stopping => gm_stopping m
  | MG_spindle => gm_spindle m
  | MG_coolant => gm_coolant m
  | MG_override_switches => gm_override_switches m
  | MG_user_defined => gm_user_defined m
  | MG_feed_rate => gm_feed_rate m
  | MG_spindle_speed => gm_spindle_speed m
  | MG_tool => gm_tool m
  end.
Definition gm_set {A} (m : gmap A) (g : mgroup) (v : option A) : gmap A :=
  match m with GMap v0 v1 v2 v3 v4 v5 v6 v7 v8 v9 v10 v11 v12 v13 v14 v15 v16 v17 v18 v19 v20 =>
  match g with
  | MG_motion => GMap v v1 v2 v3 v4 v5 v6 v7 v8 v9 v10 v11 v12 v13 v14 v15 v16 v17 v18 v19 v20
  | MG_plane_selection => GMap v0 v v2 v3 v4 v5 v6 v7 v8 v9 v10 v11 v12 v13 v14 v15 v16 v17 v18 v19 v20
  | MG_distance => GMap v0 v1 v v3 v4 v5 v6 v7 v8 v9 v10 v11 v12 v13 v14 v15 v16 v17 v18 v19 v20
  | MG_arc_ijk_distance => GMap v0 v1 v2 v v4 v5 v6 v7 v8 v9 v10 v11 v12 v13 v14 v15 v16 v17 v18 v19 v20
  | MG_feed_rate_mode => GMap v0 v1 v2 v3 v v5 v6 v7 v8 v9 v10 v11 v12 v13 v14 v15 v16 v17 v18 v19 v20
  | MG_units => GMap v0 v1 v2 v3 v4 v v6 v7 v8 v9 v10 v11 v12 v13 v14 v15 v16 v17 v18 v19 v20
  | MG_cutter_diameter_comp => GMap v0 v1 v2 v3 v4 v5 v v7 v8 v9 v10 v11 v12 v13 v14 v15 v16 v17 v18 v19 v20
  | MG_tool_length_offset => GMap v0 v1 v2 v3 v4 v5 v6 v v8 v9 v10 v11 v12 v13 v14 v15 v16 v17 v18 v19 v20
  | MG_canned_cycles_return => GMap v0 v1 v2 v3 v4 v5 v6 v7 v v9 v10 v11 v12 v13 v14 v15 v16 v17 v18 v19 v20
  | MG_coordinate_system => GMap v0 v1 v2 v3 v4 v5 v6 v7 v8 v v10 v11 v12 v13 v14 v15 v16 v17 v18 v19 v20
  | MG_control_mode => GMap v0 v1 v2 v3 v4 v5 v6 v7 v8 v9 v v11 v12 v13 v14 v15 v16 v17 v18 v19 v20
  | MG_spindle_speed_mode => GMap v0 v1 v2 v3 v4 v5 v6 v7 v8 v9 v10 v v12 v13 v14 v15 v16 v17 v18 v19 v20
  | MG_lathe_diameter => GMap v0 v1 v2 v3 v4 v5 v6 v7 v8 v9 v10 v11 v v13 v14 v15 v16 v17 v18 v19 v20
  | MG_stopping => GMap v0 v1 v2 v3 v4 v5 v6 v7 v8 v9 v10 v11 v12 v v14 v15 v16 v17 v18 v19 v20
  | MG_spindle => GMap v0 v1 v2 v3 v4 v5 v6 v7 v8 v9 v10 v11 v12 v13 v v15 v16 v17 v18 v19 v20
  | MG_coolant => GMap v0 v1 v2 v3 v4 v5 v6 v7 v8 v9 v10 v11 v12 v13 v14 v v16 v17 v18 v19 v20
  | MG_override_switches => GMap v0 v1 v2 v3 v4 v5 v6 v7 v8 v9 v10 v11 v12 v13 v14 v15 v v17 v18 v19 v20
  | MG_user_defined => GMap v0 v1 v2 v3 v4 v5 v6 v7 v8 v9 v10 v11 v12 v13 v14 v15 v16 v v18 v19 v20
  | MG_feed_rate => GMap v0 v1 v2 v3 v4 v5 v6 v7 v8 v9 v10 v11 v12 v13 v14 v15 v16 v17 v v19 v20
  | MG_spindle_speed => GMap v0 v1 v2 v3 v4 v5 v6 v7 v8 v9 v10 v11 v12 v13 v14 v15 v16 v17 v18 v v20
  | MG_tool => GMap v0 v1 v2 v3 v4 v5 v6 v7 v8 v9 v10 v11 v12 v13 v14 v15 v16 v17 v18 v19 v
  end end.

Inductive gclass :=
| GCode   (* gcodes.py:140-341 *)
| GCodeDefinition   (* gcodes.py:349-350 *)
| GCodeLineNumber   (* gcodes.py:353-365 *)
| GCodeProgramName   (* gcodes.py:368-380 *)
| GCodeMotion   (* gcodes.py:398-404 *)
| GCodeRapidMove   (* gcodes.py:407-412 *)
| GCodeLinearMove   (* gcodes.py:415-417 *)
| GCodeArcMove   (* gcodes.py:420-445 *)
| GCodeArcMoveCW   (* gcodes.py:448-450 *)
| GCodeArcMoveCCW   (* gcodes.py:453-455 *)
| GCodeDwell   (* gcodes.py:458-466 *)
| GCodeCublcSpline   (* gcodes.py:469-472 *)
| GCodeQuadraticSpline   (* gcodes.py:475-478 *)
| GCodeNURBS   (* gcodes.py:481-484 *)
| GCodeNURBSEnd   (* gcodes.py:487-489 *)
| GCodeStraightProbe   (* gcodes.py:492-497 *)
| GCodeSpindleSyncMotion   (* gcodes.py:500-503 *)
| GCodeRigidTapping   (* gcodes.py:506-509 *)
| GCodeCancelCannedCycle   (* gcodes.py:512-526 *)
| GCodeCannedCycle   (* gcodes.py:540-561 *)
| GCodeDrillingCycle   (* gcodes.py:564-568 *)
| GCodeDrillingCycleDwell   (* gcodes.py:571-575 *)
| GCodeDrillingCyclePeck   (* gcodes.py:578-582 *)
| GCodeDrillingCycleChipBreaking   (* gcodes.py:585-589 *)
| GCodeBoringCycleFeedOut   (* gcodes.py:592-596 *)
| GCodeBoringCycleDwellFeedOut   (* gcodes.py:599-603 *)
| GCodeThreadingCycle   (* gcodes.py:606-609 *)
| GCodeDistanceMode   (* gcodes.py:619-620 *)
| GCodeAbsoluteDistanceMode   (* gcodes.py:623-626 *)
| GCodeIncrementalDistanceMode   (* gcodes.py:629-632 *)
| GCodeAbsoluteArcDistanceMode   (* gcodes.py:635-638 *)
| GCodeIncrementalArcDistanceMode   (* gcodes.py:641-644 *)
| GCodeLatheDiameterMode   (* gcodes.py:647-650 *)
| GCodeLatheRadiusMode   (* gcodes.py:653-656 *)
| GCodeFeedRateMode   (* gcodes.py:663-665 *)
| GCodeInverseTimeMode   (* gcodes.py:668-670 *)
| GCodeUnitsPerMinuteMode   (* gcodes.py:673-675 *)
| GCodeUnitsPerRevolution   (* gcodes.py:678-680 *)
| GCodeSpindle   (* gcodes.py:689-691 *)
| GCodeStartSpindle   (* gcodes.py:694-696 *)
| GCodeStartSpindleCW   (* gcodes.py:699-702 *)
| GCodeStartSpindleCCW   (* gcodes.py:704-707 *)
| GCodeStopSpindle   (* gcodes.py:710-714 *)
| GCodeOrientSpindle   (* gcodes.py:717-719 *)
| GCodeSpindleSpeedMode   (* gcodes.py:722-724 *)
| GCodeSpindleConstantSurfaceSpeedMode   (* gcodes.py:727-730 *)
| GCodeSpindleRPMMode   (* gcodes.py:733-736 *)
| GCodeCoolant   (* gcodes.py:744-747 *)
| GCodeCoolantMistOn   (* gcodes.py:750-752 *)
| GCodeCoolantFloodOn   (* gcodes.py:755-757 *)
| GCodeCoolantOff   (* gcodes.py:760-762 *)
| GCodeToolLength   (* gcodes.py:772-774 *)
| GCodeToolLengthOffset   (* gcodes.py:777-780 *)
| GCodeDynamicToolLengthOffset   (* gcodes.py:783-785 *)
| GCodeAddToolLengthOffset   (* gcodes.py:788-791 *)
| GCodeCancelToolLengthOffset   (* gcodes.py:794-796 *)
| GCodeProgramControl   (* gcodes.py:805-808 *)
| GCodePauseProgram   (* gcodes.py:810-812 *)
| GCodePauseProgramOptional   (* gcodes.py:815-817 *)
| GCodeEndProgram   (* gcodes.py:820-822 *)
| GCodeEndProgramPalletShuttle   (* gcodes.py:825-827 *)
| GCodePalletChangePause   (* gcodes.py:830-832 *)
| GCodeUnit   (* gcodes.py:839-841 *)
| GCodeUseInches   (* gcodes.py:844-847 *)
| GCodeUseMillimeters   (* gcodes.py:850-853 *)
| GCodePlaneSelect   (* gcodes.py:861-882 *)
| GCodeSelectXYPlane   (* gcodes.py:885-891 *)
| GCodeSelectZXPlane   (* gcodes.py:894-903 *)
| GCodeSelectYZPlane   (* gcodes.py:906-915 *)
| GCodeSelectUVPlane   (* gcodes.py:918-920 *)
| GCodeSelectWUPlane   (* gcodes.py:923-925 *)
| GCodeSelectVWPlane   (* gcodes.py:928-930 *)
| GCodeCutterRadiusComp   (* gcodes.py:939-941 *)
| GCodeCutterRadiusCompOff   (* gcodes.py:944-946 *)
| GCodeCutterCompLeft   (* gcodes.py:949-952 *)
| GCodeCutterCompRight   (* gcodes.py:955-958 *)
| GCodeDynamicCutterCompLeft   (* gcodes.py:961-964 *)
| GCodeDynamicCutterCompRight   (* gcodes.py:967-970 *)
| GCodePathControlMode   (* gcodes.py:978-980 *)
| GCodeExactPathMode   (* gcodes.py:983-985 *)
| GCodeExactStopMode   (* gcodes.py:988-990 *)
| GCodePathBlendingMode   (* gcodes.py:993-996 *)
| GCodeCannedReturnMode   (* gcodes.py:1004-1006 *)
| GCodeCannedCycleReturnPrevLevel   (* gcodes.py:1009-1012 *)
| GCodeCannedCycleReturnToR   (* gcodes.py:1015-1018 *)
| GCodeOtherModal   (* gcodes.py:1033-1034 *)
| GCodeFeedRate   (* gcodes.py:1037-1046 *)
| GCodeSpindleSpeed   (* gcodes.py:1049-1059 *)
| GCodeSelectTool   (* gcodes.py:1062-1072 *)
| GCodeSpeedAndFeedOverrideOn   (* gcodes.py:1075-1080 *)
| GCodeSpeedAndFeedOverrideOff   (* gcodes.py:1083-1088 *)
| GCodeFeedOverride   (* gcodes.py:1091-1096 *)
| GCodeSpindleSpeedOverride   (* gcodes.py:1099-1104 *)
| GCodeAdaptiveFeed   (* gcodes.py:1107-1112 *)
| GCodeFeedStop   (* gcodes.py:1115-1120 *)
| GCodeSelectCoordinateSystem   (* gcodes.py:1123-1127 *)
| GCodeSelectCoordinateSystem1   (* gcodes.py:1130-1133 *)
| GCodeSelectCoordinateSystem2   (* gcodes.py:1136-1139 *)
| GCodeSelectCoordinateSystem3   (* gcodes.py:1142-1145 *)
| GCodeSelectCoordinateSystem4   (* gcodes.py:1148-1151 *)
| GCodeSelectCoordinateSystem5   (* gcodes.py:1154-1157 *)
| GCodeSelectCoordinateSystem6   (* gcodes.py:1160-1163 *)
| GCodeSelectCoordinateSystem7   (* gcodes.py:1166-1169 *)
| GCodeSelectCoordinateSystem8   (* gcodes.py:1172-1175 *)
| GCodeSelectCoordinateSystem9   (* gcodes.py:1178-1181 *)
| GCodeIO   (* gcodes.py:1205-1207 *)
| GCodeDigitalOutput   (* gcodes.py:1210-1212 *)
| GCodeDigitalOutputOnSyncd   (* gcodes.py:1215-1217 *)
| GCodeDigitalOutputOffSyncd   (* gcodes.py:1220-1222 *)
| GCodeDigitalOutputOn   (* gcodes.py:1225-1227 *)
| GCodeDigitalOutputOff   (* gcodes.py:1230-1232 *)
| GCodeWaitOnInput   (* gcodes.py:1235-1238 *)
| GCodeAnalogOutput   (* gcodes.py:1241-1243 *)
| GCodeAnalogOutputSyncd   (* gcodes.py:1246-1248 *)
| GCodeAnalogOutputImmediate   (* gcodes.py:1251-1253 *)
| GCodeNonModal   (* gcodes.py:1273-1274 *)
| GCodeToolChange   (* gcodes.py:1277-1282 *)
| GCodeToolSetCurrent   (* gcodes.py:1285-1290 *)
| GCodeSet   (* gcodes.py:1293-1297 *)
| GCodeGotoPredefinedPosition   (* gcodes.py:1300-1306 *)
| GCodeSetPredefinedPosition   (* gcodes.py:1309-1315 *)
| GCodeMoveInMachineCoords   (* gcodes.py:1318-1321 *)
| GCodeCoordSystemOffset   (* gcodes.py:1324-1327 *)
| GCodeResetCoordSystemOffset   (* gcodes.py:1330-1336 *)
| GCodeRestoreCoordSystemOffset   (* gcodes.py:1341-1344 *)
| GCodeUserDefined   (* gcodes.py:1347-1357 *).

Definition all_gclasses : list gclass :=
  [GCode;
   GCodeDefinition;
   GCodeLineNumber;
   GCodeProgramName;
   GCodeMotion;
   GCodeRapidMove;
   GCodeLinearMove;
   GCodeArcMove;
   GCodeArcMoveCW;
   GCodeArcMoveCCW;
   GCodeDwell;
   GCodeCublcSpline;
   GCodeQuadraticSpline;
   GCodeNURBS;
   GCodeNURBSEnd;
   GCodeStraightProbe;
   GCodeSpindleSyncMotion;
   GCodeRigidTapping;
   GCodeCancelCannedCycle;
   GCodeCannedCycle;
   GCodeDrillingCycle;
   GCodeDrillingCycleDwell;
   GCodeDrillingCyclePeck;
   GCodeDrillingCycleChipBreaking;
   GCodeBoringCycleFeedOut;
   GCodeBoringCycleDwellFeedOut;
   GCodeThreadingCycle;
   GCodeDistanceMode;
   GCodeAbsoluteDistanceMode;
   GCodeIncrementalDistanceMode;
   GCodeAbsoluteArcDistanceMode;
   GCodeIncrementalArcDistanceMode;
   GCodeLatheDiameterMode;
   GCodeLatheRadiusMode;
   GCodeFeedRateMode;
   GCodeInverseTimeMode;
   GCodeUnitsPerMinuteMode;
   GCodeUnitsPerRevolution;
   GCodeSpindle;
   GCodeStartSpindle;
   GCodeStartSpindleCW;
   GCodeStartSpindleCCW;
   GCodeStopSpindle;
   GCodeOrientSpindle;
   GCodeSpindleSpeedMode;
   GCodeSpindleConstantSurfaceSpeedMode;
   GCodeSpindleRPMMode;
   GCodeCoolant;
   GCodeCoolantMistOn;
   GCodeCoolantFloodOn;
   GCodeCoolantOff;
   GCodeToolLength;
   GCodeToolLengthOffset;
   GCodeDynamicToolLengthOffset;
   GCodeAddToolLengthOffset;
   GCodeCancelToolLengthOffset;
   GCodeProgramControl;
   GCodePauseProgram;
   GCodePauseProgramOptional;
   GCodeEndProgram;
   GCodeEndProgramPalletShuttle;
   GCodePalletChangePause;
   GCodeUnit;
   GCodeUseInches;
   GCodeUseMillimeters;
   GCodePlaneSelect;
   GCodeSelectXYPlane;
   GCodeSelectZXPlane;
   GCodeSelectYZPlane;
   GCodeSelectUVPlane;
   GCodeSelectWUPlane;
   GCodeSelectVWPlane;
   GCodeCutterRadiusComp;
   GCodeCutterRadiusCompOff;
   GCodeCutterCompLeft;
   GCodeCutterCompRight;
   GCodeDynamicCutterCompLeft;
   GCodeDynamicCutterCompRight;
   GCodePathControlMode;
   GCodeExactPathMode;
   GCodeExactStopMode;
   GCodePathBlendingMode;
   GCodeCannedReturnMode;
   GCodeCannedCycleReturnPrevLevel;
   GCodeCannedCycleReturnToR;
   GCodeOtherModal;
   GCodeFeedRate;
   GCodeSpindleSpeed;
   GCodeSelectTool;
   GCodeSpeedAndFeedOverrideOn;
   GCodeSpeedAndFeedOverrideOff;
   GCodeFeedOverride;
   GCodeSpindleSpeedOverride;
   GCodeAdaptiveFeed;
   GCodeFeedStop;
   GCodeSelectCoordinateSystem;
   GCodeSelectCoordinateSystem1;
   GCodeSelectCoordinateSystem2;
   GCodeSelectCoordinateSystem3;
   GCodeSelectCoordinateSystem4;
   GCodeSelectCoordinateSystem5;
   GCodeSelectCoordinateSystem6;
   GCodeSelectCoordinateSystem7;
   GCodeSelectCoordinateSystem8;
   GCodeSelectCoordinateSystem9;
   GCodeIO;
   GCodeDigitalOutput;
   GCodeDigitalOutputOnSyncd;
   GCodeDigitalOutputOffSyncd;
   GCodeDigitalOutputOn;
   GCodeDigitalOutputOff;
   GCodeWaitOnInput;
   GCodeAnalogOutput;
   GCodeAnalogOutputSyncd;
   GCodeAnalogOutputImmediate;
   GCodeNonModal;
   GCodeToolChange;
   GCodeToolSetCurrent;
   GCodeSet;
   GCodeGotoPredefinedPosition;
   GCodeSetPredefinedPosition;
   GCodeMoveInMachineCoords;
   GCodeCoordSystemOffset;
   GCodeResetCoordSystemOffset;
   GCodeRestoreCoordSystemOffset;
   GCodeUserDefined].

(** position in the list above, and back (for a cheap equality test) *)
Definition class_num (c : gclass) : positive :=
  (match c with
  | GCode => 1
  | GCodeDefinition => 2
  | GCodeLineNumber => 3
  | GCodeProgramName => 4
  | GCodeMotion => 5
  | GCodeRapidMove => 6
  | GCodeLinearMove => 7
  | GCodeArcMove => 8
  | GCodeArcMoveCW => 9
  | GCodeArcMoveCCW => 10
  | GCodeDwell => 11
  | GCodeCublcSpline => 12
  | GCodeQuadraticSpline => 13
  | GCodeNURBS => 14
  | GCodeNURBSEnd => 15
  | GCodeStraightProbe => 16
  | GCodeSpindleSyncMotion => 17
  | GCodeRigidTapping => 18
  | GCodeCancelCannedCycle => 19
  | GCodeCannedCycle => 20
  | GCodeDrillingCycle => 21
  | GCodeDrillingCycleDwell => 22
  | GCodeDrillingCyclePeck => 23
  | GCodeDrillingCycleChipBreaking => 24
  | GCodeBoringCycleFeedOut => 25
  | GCodeBoringCycleDwellFeedOut => 26
  | GCodeThreadingCycle => 27
  | GCodeDistanceMode => 28
  | GCodeAbsoluteDistanceMode => 29
  | GCodeIncrementalDistanceMode => 30
  | GCodeAbsoluteArcDistanceMode => 31
  | GCodeIncrementalArcDistanceMode => 32
  | GCodeLatheDiameterMode => 33
  | GCodeLatheRadiusMode => 34
  | GCodeFeedRateMode => 35
  | GCodeInverseTimeMode => 36
  | GCodeUnitsPerMinuteMode => 37
  | GCodeUnitsPerRevolution => 38
  | GCodeSpindle => 39
  | GCodeStartSpindle => 40
  | GCodeStartSpindleCW => 41
  | GCodeStartSpindleCCW => 42
  | GCodeStopSpindle => 43
  | GCodeOrientSpindle => 44
  | GCodeSpindleSpeedMode => 45
  | GCodeSpindleConstantSurfaceSpeedMode => 46
  | GCodeSpindleRPMMode => 47
  | GCodeCoolant => 48
  | GCodeCoolantMistOn => 49
  | GCodeCoolantFloodOn => 50
  | GCodeCoolantOff => 51
  | GCodeToolLength => 52
  | GCodeToolLengthOffset => 53
  | GCodeDynamicToolLengthOffset => 54
  | GCodeAddToolLengthOffset => 55
  | GCodeCancelToolLengthOffset => 56
  | GCodeProgramControl => 57
  | GCodePauseProgram => 58
  | GCodePauseProgramOptional => 59
  | GCodeEndProgram => 60
  | GCodeEndProgramPalletShuttle => 61
  | GCodePalletChangePause => 62
  | GCodeUnit => 63
  | GCodeUseInches => 64
  | GCodeUseMillimeters => 65
  | GCodePlaneSelect => 66
  | GCodeSelectXYPlane => 67
  | GCodeSelectZXPlane => 68
  | GCodeSelectYZPlane => 69
  | GCodeSelectUVPlane => 70
  | GCodeSelectWUPlane => 71
  | GCodeSelectVWPlane => 72
  | GCodeCutterRadiusComp => 73
  | GCodeCutterRadiusCompOff => 74
  | GCodeCutterCompLeft => 75
  | GCodeCutterCompRight => 76
  | GCodeDynamicCutterCompLeft => 77
  | GCodeDynamicCutterCompRight => 78
  | GCodePathControlMode => 79
  | GCodeExactPathMode => 80
  | GCodeExactStopMode => 81
  | GCodePathBlendingMode => 82
  | GCodeCannedReturnMode => 83
  | GCodeCannedCycleReturnPrevLevel => 84
  | GCodeCannedCycleReturnToR => 85
  | GCodeOtherModal => 86
  | GCodeFeedRate => 87
  | GCodeSpindleSpeed => 88
  | GCodeSelectTool => 89
  | GCodeSpeedAndFeedOverrideOn => 90
  | GCodeSpeedAndFeedOverrideOff => 91
  | GCodeFeedOverride => 92
  | GCodeSpindleSpeedOverride => 93
  | GCodeAdaptiveFeed => 94
  | GCodeFeedStop => 95
  | GCodeSelectCoordinateSystem => 96
  | GCodeSelectCoordinateSystem1 => 97
  | GCodeSelectCoordinateSystem2 => 98
  | GCodeSelectCoordinateSystem3 => 99
  | GCodeSelectCoordinateSystem4 => 100
  | GCodeSelectCoordinateSystem5 => 101
  | GCodeSelectCoordinateSystem6 => 102
  | GCodeSelectCoordinateSystem7 => 103
  | GCodeSelectCoordinateSystem8 => 104
  | GCodeSelectCoordinateSystem9 => 105
  | GCodeIO => 106
  | GCodeDigitalOutput => 107
  | GCodeDigitalOutputOnSyncd => 108
  | GCodeDigitalOutputOffSyncd => 109
  | GCodeDigitalOutputOn => 110
  | GCodeDigitalOutputOff => 111
  | GCodeWaitOnInput => 112
  | GCodeAnalogOutput => 113
  | GCodeAnalogOutputSyncd => 114
  | GCodeAnalogOutputImmediate => 115
  | GCodeNonModal => 116
  | GCodeToolChange => 117
  | GCodeToolSetCurrent => 118
  | GCodeSet => 119
  | GCodeGotoPredefinedPosition => 120
  | GCodeSetPredefinedPosition => 121
  | GCodeMoveInMachineCoords => 122
  | GCodeCoordSystemOffset => 123
  | GCodeResetCoordSystemOffset => 124
  | GCodeRestoreCoordSystemOffset => 125
  | GCodeUserDefined => 126
  end)%positive.
Definition class_of_num (n : positive) : gclass :=
  (match n with
  | 1 => GCode
  | 2 => GCodeDefinition
  | 3 => GCodeLineNumber
  | 4 => GCodeProgramName
  | 5 => GCodeMotion
  | 6 => GCodeRapidMove
  | 7 => GCodeLinearMove
  | 8 => GCodeArcMove
  | 9 => GCodeArcMoveCW
  | 10 => GCodeArcMoveCCW
  | 11 => GCodeDwell
  | 12 => GCodeCublcSpline
  | 13 => GCodeQuadraticSpline
  | 14 => GCodeNURBS
  | 15 => GCodeNURBSEnd
  | 16 => GCodeStraightProbe
  | 17 => GCodeSpindleSyncMotion
  | 18 => GCodeRigidTapping
  | 19 => GCodeCancelCannedCycle
  | 20 => GCodeCannedCycle
  | 21 => GCodeDrillingCycle
  | 22 => GCodeDrillingCycleDwell
  | 23 => GCodeDrillingCyclePeck
  | 24 => GCodeDrillingCycleChipBreaking
  | 25 => GCodeBoringCycleFeedOut
  | 26 => GCodeBoringCycleDwellFeedOut
  | 27 => GCodeThreadingCycle
  | 28 => GCodeDistanceMode
  | 29 => GCodeAbsoluteDistanceMode
  | 30 => GCodeIncrementalDistanceMode
  | 31 => GCodeAbsoluteArcDistanceMode
  | 32 => GCodeIncrementalArcDistanceMode
  | 33 => GCodeLatheDiameterMode
  | 34 => GCodeLatheRadiusMode
  | 35 => GCodeFeedRateMode
  | 36 => GCodeInverseTimeMode
  | 37 => GCodeUnitsPerMinuteMode
  | 38 => GCodeUnitsPerRevolution
  | 39 => GCodeSpindle
  | 40 => GCodeStartSpindle
  | 41 => GCodeStartSpindleCW
  | 42 => GCodeStartSpindleCCW
  | 43 => GCodeStopSpindle
  | 44 => GCodeOrientSpindle
  | 45 => GCodeSpindleSpeedMode
  | 46 => GCodeSpindleConstantSurfaceSpeedMode
  | 47 => GCodeSpindleRPMMode
  | 48 => GCodeCoolant
  | 49 => GCodeCoolantMistOn
  | 50 => GCodeCoolantFloodOn
  | 51 => GCodeCoolantOff
  | 52 => GCodeToolLength
  | 53 => GCodeToolLengthOffset
  | 54 => GCodeDynamicToolLengthOffset
  | 55 => GCodeAddToolLengthOffset
  | 56 => GCodeCancelToolLengthOffset
  | 57 => GCodeProgramControl
  | 58 => GCodePauseProgram
  | 59 => GCodePauseProgramOptional
  | 60 => GCodeEndProgram
  | 61 => GCodeEndProgramPalletShuttle
  | 62 => GCodePalletChangePause
  | 63 => GCodeUnit
  | 64 => GCodeUseInches
  | 65 => GCodeUseMillimeters
  | 66 => GCodePlaneSelect
  | 67 => GCodeSelectXYPlane
  | 68 => GCodeSelectZXPlane
  | 69 => GCodeSelectYZPlane
  | 70 => GCodeSelectUVPlane
  | 71 => GCodeSelectWUPlane
  | 72 => GCodeSelectVWPlane
  | 73 => GCodeCutterRadiusComp
  | 74 => GCodeCutterRadiusCompOff
  | 75 => GCodeCutterCompLeft
  | 76 => GCodeCutterCompRight
  | 77 => GCodeDynamicCutterCompLeft
  | 78 => GCodeDynamicCutterCompRight
  | 79 => GCodePathControlMode
  | 80 => GCodeExactPathMode
  | 81 => GCodeExactStopMode
  | 82 => GCodePathBlendingMode
  | 83 => GCodeCannedReturnMode
  | 84 => GCodeCannedCycleReturnPrevLevel
  | 85 => GCodeCannedCycleReturnToR
  | 86 => GCodeOtherModal
  | 87 => GCodeFeedRate
  | 88 => GCodeSpindleSpeed
  | 89 => GCodeSelectTool
  | 90 => GCodeSpeedAndFeedOverrideOn
  | 91 => GCodeSpeedAndFeedOverrideOff
  | 92 => GCodeFeedOverride
  | 93 => GCodeSpindleSpeedOverride
  | 94 => GCodeAdaptiveFeed
  | 95 => GCodeFeedStop
  | 96 => GCodeSelectCoordinateSystem
  | 97 => GCodeSelectCoordinateSystem1
  | 98 => GCodeSelectCoordinateSystem2
  | 99 => GCodeSelectCoordinateSystem3
  | 100 => GCodeSelectCoordinateSystem4
  | 101 => GCodeSelectCoordinateSystem5
  | 102 => GCodeSelectCoordinateSystem6
  | 103 => GCodeSelectCoordinateSystem7
  | 104 => GCodeSelectCoordinateSystem8
  | 105 => GCodeSelectCoordinateSystem9
  | 106 => GCodeIO
  | 107 => GCodeDigitalOutput
  | 108 => GCodeDigitalOutputOnSyncd
  | 109 => GCodeDigitalOutputOffSyncd
  | 110 => GCodeDigitalOutputOn
  | 111 => GCodeDigitalOutputOff
  | 112 => GCodeWaitOnInput
  | 113 => GCodeAnalogOutput
  | 114 => GCodeAnalogOutputSyncd
  | 115 => GCodeAnalogOutputImmediate
  | 116 => GCodeNonModal
  | 117 => GCodeToolChange
  | 118 => GCodeToolSetCurrent
  | 119 => GCodeSet
  | 120 => GCodeGotoPredefinedPosition
  | 121 => GCodeSetPredefinedPosition
  | 122 => GCodeMoveInMachineCoords
  | 123 => GCodeCoordSystemOffset
  | 124 => GCodeResetCoordSystemOffset
  | 125 => GCodeRestoreCoordSystemOffset
  | 126 => GCodeUserDefined
  | _ => GCode end)%positive.

Definition class_name (c : gclass) : string :=
  match c with
  | GCode => "GCode"
  | GCodeDefinition => "GCodeDefinition"
  | GCodeLineNumber => "GCodeLineNumber"
  | GCodeProgramName => "GCodeProgramName"
  | GCodeMotion => "GCodeMotion"
  | GCodeRapidMove => "GCodeRapidMove"
  | GCodeLinearMove => "GCodeLinearMove"
  | GCodeArcMove => "GCodeArcMove"
  | GCodeArcMoveCW => "GCodeArcMoveCW"
  | GCodeArcMoveCCW => "GCodeArcMoveCCW"
  | GCodeDwell => "GCodeDwell"
  | GCodeCublcSpline => "GCodeCublcSpline"
  | GCodeQuadraticSpline => "GCodeQuadraticSpline"
  | GCodeNURBS => "GCodeNURBS"
  | GCodeNURBSEnd => "GCodeNURBSEnd"
  | GCodeStraightProbe => "GCodeStraightProbe"
  | GCodeSpindleSyncMotion => "GCodeSpindleSyncMotion"
  | GCodeRigidTapping => "GCodeRigidTapping"
  | GCodeCancelCannedCycle => "GCodeCancelCannedCycle"
  | GCodeCannedCycle => "GCodeCannedCycle"
  | GCodeDrillingCycle => "GCodeDrillingCycle"
  | GCodeDrillingCycleDwell => "GCodeDrillingCycleDwell"
  | GCodeDrillingCyclePeck => "GCodeDrillingCyclePeck"
  | GCodeDrillingCycleChipBreaking => "GCodeDrillingCycleChipBreaking"
  | GCodeBoringCycleFeedOut => "GCodeBoringCycleFeedOut"
  | GCodeBoringCycleDwellFeedOut => "GCodeBoringCycleDwellFeedOut"
  | GCodeThreadingCycle => "GCodeThreadingCycle"
  | GCodeDistanceMode => "GCodeDistanceMode"
  | GCodeAbsoluteDistanceMode => "GCodeAbsoluteDistanceMode"
  | GCodeIncrementalDistanceMode => "GCodeIncrementalDistanceMode"
  | GCodeAbsoluteArcDistanceMode => "GCodeAbsoluteArcDistanceMode"
  | GCodeIncrementalArcDistanceMode => "GCodeIncrementalArcDistanceMode"
  | GCodeLatheDiameterMode => "GCodeLatheDiameterMode"
  | GCodeLatheRadiusMode => "GCodeLatheRadiusMode"
  | GCodeFeedRateMode => "GCodeFeedRateMode"
  | GCodeInverseTimeMode => "GCodeInverseTimeMode"
  | GCodeUnitsPerMinuteMode => "GCodeUnitsPerMinuteMode"
  | GCodeUnitsPerRevolution => "GCodeUnitsPerRevolution"
  | GCodeSpindle => "GCodeSpindle"
  | GCodeStartSpindle => "GCodeStartSpindle"
  | GCodeStartSpindleCW => "GCodeStartSpindleCW"
  | GCodeStartSpindleCCW => "GCodeStartSpindleCCW"
  | GCodeStopSpindle => "GCodeStopSpindle"
  | GCodeOrientSpindle => "GCodeOrientSpindle"
  | GCodeSpindleSpeedMode => "GCodeSpindleSpeedMode"
  | GCodeSpindleConstantSurfaceSpeedMode => "GCodeSpindleConstantSurfaceSpeedMode"
  | GCodeSpindleRPMMode => "GCodeSpindleRPMMode"
  | GCodeCoolant => "GCodeCoolant"
  | GCodeCoolantMistOn => "GCodeCoolantMistOn"
  | GCodeCoolantFloodOn => "GCodeCoolantFloodOn"
  | GCodeCoolantOff => "GCodeCoolantOff"
  | GCodeToolLength => "GCodeToolLength"
  | GCodeToolLengthOffset => "GCodeToolLengthOffset"
  | GCodeDynamicToolLengthOffset => "GCodeDynamicToolLengthOffset"
  | GCodeAddToolLengthOffset => "GCodeAddToolLengthOffset"
  | GCodeCancelToolLengthOffset => "GCodeCancelToolLengthOffset"
  | GCodeProgramControl => "GCodeProgramControl"
  | GCodePauseProgram => "GCodePauseProgram"
  | GCodePauseProgramOptional => "GCodePauseProgramOptional"
  | GCodeEndProgram => "GCodeEndProgram"
  | GCodeEndProgramPalletShuttle => "GCodeEndProgramPalletShuttle"
  | GCodePalletChangePause => "GCodePalletChangePause"
  | GCodeUnit => "GCodeUnit"
  | GCodeUseInches => "GCodeUseInches"
  | GCodeUseMillimeters => "GCodeUseMillimeters"
  | GCodePlaneSelect => "GCodePlaneSelect"
  | GCodeSelectXYPlane => "GCodeSelectXYPlane"
  | GCodeSelectZXPlane => "GCodeSelectZXPlane"
  | GCodeSelectYZPlane => "GCodeSelectYZPlane"
  | GCodeSelectUVPlane => "GCodeSelectUVPlane"
  | GCodeSelectWUPlane => "GCodeSelectWUPlane"
  | GCodeSelectVWPlane => "GCodeSelectVWPlane"
  | GCodeCutterRadiusComp => "GCodeCutterRadiusComp"
  | GCodeCutterRadiusCompOff => "GCodeCutterRadiusCompOff"
  | GCodeCutterCompLeft => "GCodeCutterCompLeft"
  | GCodeCutterCompRight => "GCodeCutterCompRight"
  | GCodeDynamicCutterCompLeft => "GCodeDynamicCutterCompLeft"
  | GCodeDynamicCutterCompRight => "GCodeDynamicCutterCompRight"
  | GCodePathControlMode => "GCodePathControlMode"
  | GCodeExactPathMode => "GCodeExactPathMode"
  | GCodeExactStopMode => "GCodeExactStopMode"
  | GCodePathBlendingMode => "GCodePathBlendingMode"
  | GCodeCannedReturnMode => "GCodeCannedReturnMode"
  | GCodeCannedCycleReturnPrevLevel => "GCodeCannedCycleReturnPrevLevel"
  | GCodeCannedCycleReturnToR => "GCodeCannedCycleReturnToR"
  | GCodeOtherModal => "GCodeOtherModal"
  | GCodeFeedRate => "GCodeFeedRate"
  | GCodeSpindleSpeed => "GCodeSpindleSpeed"
  | GCodeSelectTool => "GCodeSelectTool"
  | GCodeSpeedAndFeedOverrideOn => "GCodeSpeedAndFeedOverrideOn"
  | GCodeSpeedAndFeedOverrideOff => "GCodeSpeedAndFeedOverrideOff"
  | GCodeFeedOverride => "GCodeFeedOverride"
  | GCodeSpindleSpeedOverride => "GCodeSpindleSpeedOverride"
  | GCodeAdaptiveFeed => "GCodeAdaptiveFeed"
  | GCodeFeedStop => "GCodeFeedStop"
  | GCodeSelectCoordinateSystem => "GCodeSelectCoordinateSystem"
  | GCodeSelectCoordinateSystem1 => "GCodeSelectCoordinateSystem1"
  | GCodeSelectCoordinateSystem2 => "GCodeSelectCoordinateSystem2"
  | GCodeSelectCoordinateSystem3 => "GCodeSelectCoordinateSystem3"
  | GCodeSelectCoordinateSystem4 => "GCodeSelectCoordinateSystem4"
  | GCodeSelectCoordinateSystem5 => "GCodeSelectCoordinateSystem5"
  | GCodeSelectCoordinateSystem6 => "GCodeSelectCoordinateSystem6"
  | GCodeSelectCoordinateSystem7 => "GCodeSelectCoordinateSystem7"
  | GCodeSelectCoordinateSystem8 => "GCodeSelectCoordinateSystem8"
  | GCodeSelectCoordinateSystem9 => "GCodeSelectCoordinateSystem9"
  | GCodeIO => "GCodeIO"
  | GCodeDigitalOutput => "GCodeDigitalOutput"
  | GCodeDigitalOutputOnSyncd => "GCodeDigitalOutputOnSyncd"
  | GCodeDigitalOutputOffSyncd => "GCodeDigitalOutputOffSyncd"
  | GCodeDigitalOutputOn => "GCodeDigitalOutputOn"
  | GCodeDigitalOutputOff => "GCodeDigitalOutputOff"
  | GCodeWaitOnInput => "GCodeWaitOnInput"
  | GCodeAnalogOutput => "GCodeAnalogOutput"
  | GCodeAnalogOutputSyncd => "GCodeAnalogOutputSyncd"
  | GCodeAnalogOutputImmediate => "GCodeAnalogOutputImmediate"
  | GCodeNonModal => "GCodeNonModal"
  | GCodeToolChange => "GCodeToolChange"
  | GCodeToolSetCurrent => "GCodeToolSetCurrent"
  | GCodeSet => "GCodeSet"
  | GCodeGotoPredefinedPosition => "GCodeGotoPredefinedPosition"
  | GCodeSetPredefinedPosition => "GCodeSetPredefinedPosition"
  | GCodeMoveInMachineCoords => "GCodeMoveInMachineCoords"
  | GCodeCoordSystemOffset => "GCodeCoordSystemOffset"
  | GCodeResetCoordSystemOffset => "GCodeResetCoordSystemOffset"
  | GCodeRestoreCoordSystemOffset => "GCodeRestoreCoordSystemOffset"
  | GCodeUserDefined => "GCodeUserDefined"
  end.

Definition parent (c : gclass) : option gclass :=
  match c with
  | GCode => None
  | GCodeDefinition => Some GCode
  | GCodeLineNumber => Some GCodeDefinition
  | GCodeProgramName => Some GCodeDefinition
  | GCodeMotion => Some GCode
  | GCodeRapidMove => Some GCodeMotion
  | GCodeLinearMove => Some GCodeMotion
  | GCodeArcMove => Some GCodeMotion
  | GCodeArcMoveCW => Some GCodeArcMove
  | GCodeArcMoveCCW => Some GCodeArcMove
  | GCodeDwell => Some GCodeMotion
  | GCodeCublcSpline => Some GCodeMotion
  | GCodeQuadraticSpline => Some GCodeMotion
  | GCodeNURBS => Some GCodeMotion
  | GCodeNURBSEnd => Some GCodeNURBS
  | GCodeStraightProbe => Some GCodeMotion
  | GCodeSpindleSyncMotion => Some GCodeMotion
  | GCodeRigidTapping => Some GCodeMotion
  | GCodeCancelCannedCycle => Some GCodeMotion
  | GCodeCannedCycle => Some GCode
  | GCodeDrillingCycle => Some GCodeCannedCycle
  | GCodeDrillingCycleDwell => Some GCodeCannedCycle
  | GCodeDrillingCyclePeck => Some GCodeCannedCycle
  | GCodeDrillingCycleChipBreaking => Some GCodeCannedCycle
  | GCodeBoringCycleFeedOut => Some GCodeCannedCycle
  | GCodeBoringCycleDwellFeedOut => Some GCodeCannedCycle
  | GCodeThreadingCycle => Some GCodeCannedCycle
  | GCodeDistanceMode => Some GCode
  | GCodeAbsoluteDistanceMode => Some GCodeDistanceMode
  | GCodeIncrementalDistanceMode => Some GCodeDistanceMode
  | GCodeAbsoluteArcDistanceMode => Some GCodeDistanceMode
  | GCodeIncrementalArcDistanceMode => Some GCodeDistanceMode
  | GCodeLatheDiameterMode => Some GCodeDistanceMode
  | GCodeLatheRadiusMode => Some GCodeDistanceMode
  | GCodeFeedRateMode => Some GCode
  | GCodeInverseTimeMode => Some GCodeFeedRateMode
  | GCodeUnitsPerMinuteMode => Some GCodeFeedRateMode
  | GCodeUnitsPerRevolution => Some GCodeFeedRateMode
  | GCodeSpindle => Some GCode
  | GCodeStartSpindle => Some GCodeSpindle
  | GCodeStartSpindleCW => Some GCodeStartSpindle
  | GCodeStartSpindleCCW => Some GCodeStartSpindle
  | GCodeStopSpindle => Some GCodeSpindle
  | GCodeOrientSpindle => Some GCodeSpindle
  | GCodeSpindleSpeedMode => Some GCodeSpindle
  | GCodeSpindleConstantSurfaceSpeedMode => Some GCodeSpindleSpeedMode
  | GCodeSpindleRPMMode => Some GCodeSpindleSpeedMode
  | GCodeCoolant => Some GCode
  | GCodeCoolantMistOn => Some GCodeCoolant
  | GCodeCoolantFloodOn => Some GCodeCoolant
  | GCodeCoolantOff => Some GCodeCoolant
  | GCodeToolLength => Some GCode
  | GCodeToolLengthOffset => Some GCodeToolLength
  | GCodeDynamicToolLengthOffset => Some GCodeToolLength
  | GCodeAddToolLengthOffset => Some GCodeToolLength
  | GCodeCancelToolLengthOffset => Some GCodeToolLength
  | GCodeProgramControl => Some GCode
  | GCodePauseProgram => Some GCodeProgramControl
  | GCodePauseProgramOptional => Some GCodeProgramControl
  | GCodeEndProgram => Some GCodeProgramControl
  | GCodeEndProgramPalletShuttle => Some GCodeProgramControl
  | GCodePalletChangePause => Some GCodeProgramControl
  | GCodeUnit => Some GCode
  | GCodeUseInches => Some GCodeUnit
  | GCodeUseMillimeters => Some GCodeUnit
  | GCodePlaneSelect => Some GCode
  | GCodeSelectXYPlane => Some GCodePlaneSelect
  | GCodeSelectZXPlane => Some GCodePlaneSelect
  | GCodeSelectYZPlane => Some GCodePlaneSelect
  | GCodeSelectUVPlane => Some GCodePlaneSelect
  | GCodeSelectWUPlane => Some GCodePlaneSelect
  | GCodeSelectVWPlane => Some GCodePlaneSelect
  | GCodeCutterRadiusComp => Some GCode
  | GCodeCutterRadiusCompOff => Some GCodeCutterRadiusComp
  | GCodeCutterCompLeft => Some GCodeCutterRadiusComp
  | GCodeCutterCompRight => Some GCodeCutterRadiusComp
  | GCodeDynamicCutterCompLeft => Some GCodeCutterRadiusComp
  | GCodeDynamicCutterCompRight => Some GCodeCutterRadiusComp
  | GCodePathControlMode => Some GCode
  | GCodeExactPathMode => Some GCodePathControlMode
  | GCodeExactStopMode => Some GCodePathControlMode
  | GCodePathBlendingMode => Some GCodePathControlMode
  | GCodeCannedReturnMode => Some GCode
  | GCodeCannedCycleReturnPrevLevel => Some GCodeCannedReturnMode
  | GCodeCannedCycleReturnToR => Some GCodeCannedReturnMode
  | GCodeOtherModal => Some GCode
  | GCodeFeedRate => Some GCodeOtherModal
  | GCodeSpindleSpeed => Some GCodeOtherModal
  | GCodeSelectTool => Some GCodeOtherModal
  | GCodeSpeedAndFeedOverrideOn => Some GCodeOtherModal
  | GCodeSpeedAndFeedOverrideOff => Some GCodeOtherModal
  | GCodeFeedOverride => Some GCodeOtherModal
  | GCodeSpindleSpeedOverride => Some GCodeOtherModal
  | GCodeAdaptiveFeed => Some GCodeOtherModal
  | GCodeFeedStop => Some GCodeOtherModal
  | GCodeSelectCoordinateSystem => Some GCodeOtherModal
  | GCodeSelectCoordinateSystem1 => Some GCodeSelectCoordinateSystem
  | GCodeSelectCoordinateSystem2 => Some GCodeSelectCoordinateSystem
  | GCodeSelectCoordinateSystem3 => Some GCodeSelectCoordinateSystem
  | GCodeSelectCoordinateSystem4 => Some GCodeSelectCoordinateSystem
  | GCodeSelectCoordinateSystem5 => Some GCodeSelectCoordinateSystem
  | GCodeSelectCoordinateSystem6 => Some GCodeSelectCoordinateSystem
  | GCodeSelectCoordinateSystem7 => Some GCodeSelectCoordinateSystem
  | GCodeSelectCoordinateSystem8 => Some GCodeSelectCoordinateSystem
  | GCodeSelectCoordinateSystem9 => Some GCodeSelectCoordinateSystem
  | GCodeIO => Some GCode
  | GCodeDigitalOutput => Some GCodeIO
  | GCodeDigitalOutputOnSyncd => Some GCodeDigitalOutput
  | GCodeDigitalOutputOffSyncd => Some GCodeDigitalOutput
  | GCodeDigitalOutputOn => Some GCodeDigitalOutput
  | GCodeDigitalOutputOff => Some GCodeDigitalOutput
  | GCodeWaitOnInput => Some GCodeIO
  | GCodeAnalogOutput => Some GCodeIO
  | GCodeAnalogOutputSyncd => Some GCodeAnalogOutput
  | GCodeAnalogOutputImmediate => Some GCodeAnalogOutput
  | GCodeNonModal => Some GCode
  | GCodeToolChange => Some GCodeNonModal
  | GCodeToolSetCurrent => Some GCodeNonModal
  | GCodeSet => Some GCodeNonModal
  | GCodeGotoPredefinedPosition => Some GCodeNonModal
  | GCodeSetPredefinedPosition => Some GCodeNonModal
  | GCodeMoveInMachineCoords => Some GCodeNonModal
  | GCodeCoordSystemOffset => Some GCodeNonModal
  | GCodeResetCoordSystemOffset => Some GCodeNonModal
  | GCodeRestoreCoordSystemOffset => Some GCodeNonModal
  | GCodeUserDefined => Some GCodeNonModal
  end.

Inductive matcher := MLetter (l : letter) | MRange (l : letter) (lo hi : Qc) | MIn (l : letter) (vs : list Qc).
Inductive proc := PNothing | PMove | PCanned | PCancelMotion.

(** word_key: own definition, [None] if inherited *)
Definition own_word_key {ar : Arith} (c : gclass) : option (option (letter * value)) :=
  match c with
  | GCode => Some None
  | GCodeRapidMove => Some (Some (LG, VInt 0))
  | GCodeLinearMove => Some (Some (LG, VInt 1))
  | GCodeArcMoveCW => Some (Some (LG, VInt 2))
  | GCodeArcMoveCCW => Some (Some (LG, VInt 3))
  | GCodeDwell => Some (Some (LG, VInt 4))
  | GCodeCublcSpline => Some (Some (LG, VInt 5))
  | GCodeQuadraticSpline => Some (Some (LG, VFloat (flit 51 10)))
  | GCodeNURBS => Some (Some (LG, VFloat (flit 26 5)))
  | GCodeNURBSEnd => Some (Some (LG, VFloat (flit 53 10)))
  | GCodeSpindleSyncMotion => Some (Some (LG, VInt 33))
  | GCodeRigidTapping => Some (Some (LG, VFloat (flit 331 10)))
  | GCodeCancelCannedCycle => Some (Some (LG, VInt 80))
  | GCodeDrillingCycle => Some (Some (LG, VInt 81))
  | GCodeDrillingCycleDwell => Some (Some (LG, VInt 82))
  | GCodeDrillingCyclePeck => Some (Some (LG, VInt 83))
  | GCodeDrillingCycleChipBreaking => Some (Some (LG, VInt 73))
  | GCodeBoringCycleFeedOut => Some (Some (LG, VInt 85))
  | GCodeBoringCycleDwellFeedOut => Some (Some (LG, VInt 89))
  | GCodeThreadingCycle => Some (Some (LG, VInt 76))
  | GCodeAbsoluteDistanceMode => Some (Some (LG, VInt 90))
  | GCodeIncrementalDistanceMode => Some (Some (LG, VInt 91))
  | GCodeAbsoluteArcDistanceMode => Some (Some (LG, VFloat (flit 901 10)))
  | GCodeIncrementalArcDistanceMode => Some (Some (LG, VFloat (flit 911 10)))
  | GCodeLatheDiameterMode => Some (Some (LG, VInt 7))
  | GCodeLatheRadiusMode => Some (Some (LG, VInt 8))
  | GCodeInverseTimeMode => Some (Some (LG, VInt 93))
  | GCodeUnitsPerMinuteMode => Some (Some (LG, VInt 94))
  | GCodeUnitsPerRevolution => Some (Some (LG, VInt 95))
  | GCodeStartSpindleCW => Some (Some (LM, VInt 3))
  | GCodeStartSpindleCCW => Some (Some (LM, VInt 4))
  | GCodeStopSpindle => Some (Some (LM, VInt 5))
  | GCodeOrientSpindle => Some (Some (LM, VInt 19))
  | GCodeSpindleConstantSurfaceSpeedMode => Some (Some (LG, VInt 96))
  | GCodeSpindleRPMMode => Some (Some (LG, VInt 97))
  | GCodeCoolantMistOn => Some (Some (LM, VInt 7))
  | GCodeCoolantFloodOn => Some (Some (LM, VInt 8))
  | GCodeCoolantOff => Some (Some (LM, VInt 9))
  | GCodeToolLengthOffset => Some (Some (LG, VInt 43))
  | GCodeDynamicToolLengthOffset => Some (Some (LG, VFloat (flit 431 10)))
  | GCodeAddToolLengthOffset => Some (Some (LG, VFloat (flit 216 5)))
  | GCodeCancelToolLengthOffset => Some (Some (LG, VInt 49))
  | GCodePauseProgram => Some (Some (LM, VInt 0))
  | GCodePauseProgramOptional => Some (Some (LM, VInt 1))
  | GCodeEndProgram => Some (Some (LM, VInt 2))
  | GCodeEndProgramPalletShuttle => Some (Some (LM, VInt 30))
  | GCodePalletChangePause => Some (Some (LM, VInt 60))
  | GCodeUseInches => Some (Some (LG, VInt 20))
  | GCodeUseMillimeters => Some (Some (LG, VInt 21))
  | GCodeSelectXYPlane => Some (Some (LG, VInt 17))
  | GCodeSelectZXPlane => Some (Some (LG, VInt 18))
  | GCodeSelectYZPlane => Some (Some (LG, VInt 19))
  | GCodeSelectUVPlane => Some (Some (LG, VFloat (flit 171 10)))
  | GCodeSelectWUPlane => Some (Some (LG, VFloat (flit 181 10)))
  | GCodeSelectVWPlane => Some (Some (LG, VFloat (flit 191 10)))
  | GCodeCutterRadiusCompOff => Some (Some (LG, VInt 40))
  | GCodeCutterCompLeft => Some (Some (LG, VInt 41))
  | GCodeCutterCompRight => Some (Some (LG, VInt 42))
  | GCodeDynamicCutterCompLeft => Some (Some (LG, VFloat (flit 411 10)))
  | GCodeDynamicCutterCompRight => Some (Some (LG, VFloat (flit 421 10)))
  | GCodeExactPathMode => Some (Some (LG, VInt 61))
  | GCodeExactStopMode => Some (Some (LG, VFloat (flit 611 10)))
  | GCodePathBlendingMode => Some (Some (LG, VInt 64))
  | GCodeCannedCycleReturnPrevLevel => Some (Some (LG, VInt 98))
  | GCodeCannedCycleReturnToR => Some (Some (LG, VInt 99))
  | GCodeSpeedAndFeedOverrideOn => Some (Some (LM, VInt 48))
  | GCodeSpeedAndFeedOverrideOff => Some (Some (LM, VInt 49))
  | GCodeFeedOverride => Some (Some (LM, VInt 50))
  | GCodeSpindleSpeedOverride => Some (Some (LM, VInt 51))
  | GCodeAdaptiveFeed => Some (Some (LM, VInt 52))
  | GCodeFeedStop => Some (Some (LM, VInt 53))
  | GCodeSelectCoordinateSystem1 => Some (Some (LG, VInt 54))
  | GCodeSelectCoordinateSystem2 => Some (Some (LG, VInt 55))
  | GCodeSelectCoordinateSystem3 => Some (Some (LG, VInt 56))
  | GCodeSelectCoordinateSystem4 => Some (Some (LG, VInt 57))
  | GCodeSelectCoordinateSystem5 => Some (Some (LG, VInt 58))
  | GCodeSelectCoordinateSystem6 => Some (Some (LG, VInt 59))
  | GCodeSelectCoordinateSystem7 => Some (Some (LG, VFloat (flit 591 10)))
  | GCodeSelectCoordinateSystem8 => Some (Some (LG, VFloat (flit 296 5)))
  | GCodeSelectCoordinateSystem9 => Some (Some (LG, VFloat (flit 593 10)))
  | GCodeDigitalOutputOnSyncd => Some (Some (LM, VInt 62))
  | GCodeDigitalOutputOffSyncd => Some (Some (LM, VInt 63))
  | GCodeDigitalOutputOn => Some (Some (LM, VInt 64))
  | GCodeDigitalOutputOff => Some (Some (LM, VInt 65))
  | GCodeWaitOnInput => Some (Some (LM, VInt 66))
  | GCodeAnalogOutputSyncd => Some (Some (LM, VInt 67))
  | GCodeAnalogOutputImmediate => Some (Some (LM, VInt 68))
  | GCodeToolChange => Some (Some (LM, VInt 6))
  | GCodeToolSetCurrent => Some (Some (LM, VInt 61))
  | GCodeSet => Some (Some (LG, VInt 10))
  | GCodeMoveInMachineCoords => Some (Some (LG, VInt 53))
  | GCodeCoordSystemOffset => Some (Some (LG, VInt 92))
  | GCodeRestoreCoordSystemOffset => Some (Some (LG, VFloat (flit 923 10)))
  | _ => None
  end.

(** default_word: own definition, [None] if inherited *)
Definition own_default_word {ar : Arith} (c : gclass) : option (option (letter * value)) :=
  match c with
  | GCode => Some None
  | GCodeStraightProbe => Some (Some (LG, VFloat (flit 191 5)))
  | GCodeFeedRate => Some (Some (LF, VInt 0))
  | GCodeSpindleSpeed => Some (Some (LS, VInt 0))
  | GCodeSelectTool => Some (Some (LT, VInt 0))
  | GCodeGotoPredefinedPosition => Some (Some (LG, VInt 28))
  | GCodeSetPredefinedPosition => Some (Some (LG, VFloat (flit 281 10)))
  | GCodeResetCoordSystemOffset => Some (Some (LG, VFloat (flit 921 10)))
  | _ => None
  end.

(** word_matches: own definition, [None] if inherited *)
Definition own_word_matches {ar : Arith} (c : gclass) : option (option matcher) :=
  match c with
  | GCode => Some None
  | GCodeLineNumber => Some (Some (MLetter LN))
  | GCodeProgramName => Some (Some (MLetter LO))
  | GCodeStraightProbe => Some (Some (MRange LG (flit 191 5) (flit 77 2)))
  | GCodeFeedRate => Some (Some (MLetter LF))
  | GCodeSpindleSpeed => Some (Some (MLetter LS))
  | GCodeSelectTool => Some (Some (MLetter LT))
  | GCodeGotoPredefinedPosition => Some (Some (MIn LG [flit 28 1; flit 30 1]))
  | GCodeSetPredefinedPosition => Some (Some (MIn LG [flit 281 10; flit 301 10]))
  | GCodeResetCoordSystemOffset => Some (Some (MIn LG [flit 921 10; flit 461 5]))
  | _ => None
  end.

(** word_letter: own definition, [None] if inherited *)
Definition own_word_letter (c : gclass) : option letter :=
  match c with
  | GCode => Some LG
  | GCodeLineNumber => Some LN
  | GCodeProgramName => Some LO
  | GCodeSpindle => Some LM
  | GCodeSpindleSpeedMode => Some LG
  | GCodeCoolant => Some LM
  | GCodeProgramControl => Some LM
  | GCodeFeedRate => Some LF
  | GCodeSpindleSpeed => Some LS
  | GCodeSelectTool => Some LT
  | GCodeSpeedAndFeedOverrideOn => Some LM
  | GCodeSpeedAndFeedOverrideOff => Some LM
  | GCodeFeedOverride => Some LM
  | GCodeSpindleSpeedOverride => Some LM
  | GCodeAdaptiveFeed => Some LM
  | GCodeFeedStop => Some LM
  | GCodeIO => Some LM
  | GCodeToolChange => Some LM
  | GCodeToolSetCurrent => Some LM
  | GCodeUserDefined => Some LM
  | _ => None
  end.

(** param_letters: own definition, [None] if inherited *)
Definition own_param_letters (c : gclass) : option (list letter) :=
  match c with
  | GCode => Some []
  | GCodeMotion => Some [LX; LY; LZ; LA; LB; LC; LU; LV; LW]
  | GCodeArcMove => Some [LX; LY; LZ; LA; LB; LC; LU; LV; LW; LI; LJ; LK; LR; LP]
  | GCodeDwell => Some [LP]
  | GCodeCublcSpline => Some [LX; LY; LZ; LA; LB; LC; LU; LV; LW; LI; LJ; LP; LQ]
  | GCodeQuadraticSpline => Some [LX; LY; LZ; LA; LB; LC; LU; LV; LW; LI; LJ]
  | GCodeNURBS => Some [LX; LY; LZ; LA; LB; LC; LU; LV; LW; LP; LL]
  | GCodeSpindleSyncMotion => Some [LX; LY; LZ; LA; LB; LC; LU; LV; LW; LK]
  | GCodeRigidTapping => Some [LX; LY; LZ; LA; LB; LC; LU; LV; LW; LK]
  | GCodeCannedCycle => Some [LX; LY; LZ; LU; LV; LW]
  | GCodeDrillingCycle => Some [LX; LY; LZ; LU; LV; LW; LR; LL; LP]
  | GCodeDrillingCycleDwell => Some [LX; LY; LZ; LU; LV; LW; LR; LL; LP]
  | GCodeDrillingCyclePeck => Some [LX; LY; LZ; LU; LV; LW; LR; LL; LQ]
  | GCodeDrillingCycleChipBreaking => Some [LX; LY; LZ; LU; LV; LW; LR; LL; LQ]
  | GCodeBoringCycleFeedOut => Some [LX; LY; LZ; LU; LV; LW; LR; LL; LP]
  | GCodeBoringCycleDwellFeedOut => Some [LX; LY; LZ; LU; LV; LW; LR; LL; LP]
  | GCodeThreadingCycle => Some [LX; LY; LZ; LU; LV; LW; LP; LI; LJ; LR; LK; LQ; LH; LL; LE]
  | GCodeSpindleConstantSurfaceSpeedMode => Some [LD; LS]
  | GCodeSpindleRPMMode => Some [LD]
  | GCodeToolLengthOffset => Some [LH]
  | GCodeAddToolLengthOffset => Some [LH]
  | GCodeCutterCompLeft => Some [LD]
  | GCodeCutterCompRight => Some [LD]
  | GCodeDynamicCutterCompLeft => Some [LD; LL]
  | GCodeDynamicCutterCompRight => Some [LD; LL]
  | GCodePathBlendingMode => Some [LP; LQ]
  | GCodeFeedOverride => Some [LP]
  | GCodeSpindleSpeedOverride => Some [LP]
  | GCodeAdaptiveFeed => Some [LP]
  | GCodeFeedStop => Some [LP]
  | GCodeDigitalOutput => Some [LP]
  | GCodeWaitOnInput => Some [LP; LE; LL; LQ]
  | GCodeAnalogOutput => Some [LT]
  | GCodeToolChange => Some [LT]
  | GCodeToolSetCurrent => Some [LQ]
  | GCodeSet => Some [LL; LP; LQ; LR; LA; LB; LC; LX; LY; LZ]
  | GCodeUserDefined => Some [LP; LQ]
  | _ => None
  end.

(** modal_param_letters: own definition, [None] if inherited *)
Definition own_modal_param_letters (c : gclass) : option (list letter) :=
  match c with
  | GCode => Some []
  | GCodeDrillingCycle => Some [LX; LY; LZ; LU; LV; LW; LR; LP]
  | GCodeDrillingCycleDwell => Some [LX; LY; LZ; LU; LV; LW; LR; LP]
  | GCodeDrillingCyclePeck => Some [LX; LY; LZ; LU; LV; LW; LR; LQ]
  | GCodeDrillingCycleChipBreaking => Some [LX; LY; LZ; LU; LV; LW; LR; LQ]
  | GCodeBoringCycleFeedOut => Some [LX; LY; LZ; LU; LV; LW; LR; LP]
  | GCodeBoringCycleDwellFeedOut => Some [LX; LY; LZ; LU; LV; LW; LR; LP]
  | _ => None
  end.

(** modal_group: own definition, [None] if inherited *)
Definition own_modal_group (c : gclass) : option (option mgroup) :=
  match c with
  | GCode => Some None
  | GCodeMotion => Some (Some MG_motion)
  | GCodeDwell => Some None
  | GCodeCancelCannedCycle => Some None
  | GCodeCannedCycle => Some (Some MG_motion)
  | GCodeAbsoluteDistanceMode => Some (Some MG_distance)
  | GCodeIncrementalDistanceMode => Some (Some MG_distance)
  | GCodeAbsoluteArcDistanceMode => Some (Some MG_arc_ijk_distance)
  | GCodeIncrementalArcDistanceMode => Some (Some MG_arc_ijk_distance)
  | GCodeLatheDiameterMode => Some (Some MG_lathe_diameter)
  | GCodeLatheRadiusMode => Some (Some MG_lathe_diameter)
  | GCodeFeedRateMode => Some (Some MG_feed_rate_mode)
  | GCodeStartSpindle => Some (Some MG_spindle)
  | GCodeStopSpindle => Some (Some MG_spindle)
  | GCodeSpindleSpeedMode => Some (Some MG_spindle_speed_mode)
  | GCodeCoolant => Some (Some MG_coolant)
  | GCodeToolLength => Some (Some MG_tool_length_offset)
  | GCodeProgramControl => Some (Some MG_stopping)
  | GCodeUnit => Some (Some MG_units)
  | GCodePlaneSelect => Some (Some MG_plane_selection)
  | GCodeCutterRadiusComp => Some (Some MG_cutter_diameter_comp)
  | GCodePathControlMode => Some (Some MG_control_mode)
  | GCodeCannedReturnMode => Some (Some MG_canned_cycles_return)
  | GCodeFeedRate => Some (Some MG_feed_rate)
  | GCodeSpindleSpeed => Some (Some MG_spindle_speed)
  | GCodeSelectTool => Some (Some MG_tool)
  | GCodeSpeedAndFeedOverrideOn => Some (Some MG_override_switches)
  | GCodeSpeedAndFeedOverrideOff => Some (Some MG_override_switches)
  | GCodeSelectCoordinateSystem => Some (Some MG_coordinate_system)
  | GCodeUserDefined => Some (Some MG_user_defined)
  | _ => None
  end.

(** exec_order: own definition, [None] if inherited *)
Definition own_exec_order (c : gclass) : option Z :=
  match c with
  | GCode => Some 999
  | GCodeLineNumber => Some 0
  | GCodeProgramName => Some 1
  | GCodeMotion => Some 242
  | GCodeDwell => Some 140
  | GCodeCancelCannedCycle => Some 241
  | GCodeCannedCycle => Some 242
  | GCodeDistanceMode => Some 210
  | GCodeFeedRateMode => Some 30
  | GCodeSpindle => Some 90
  | GCodeCoolant => Some 110
  | GCodeToolLength => Some 180
  | GCodeProgramControl => Some 250
  | GCodeUnit => Some 160
  | GCodePlaneSelect => Some 150
  | GCodeCutterRadiusComp => Some 170
  | GCodePathControlMode => Some 200
  | GCodeCannedReturnMode => Some 220
  | GCodeFeedRate => Some 40
  | GCodeSpindleSpeed => Some 50
  | GCodeSelectTool => Some 60
  | GCodeSpeedAndFeedOverrideOn => Some 120
  | GCodeSpeedAndFeedOverrideOff => Some 120
  | GCodeFeedOverride => Some 120
  | GCodeSpindleSpeedOverride => Some 120
  | GCodeAdaptiveFeed => Some 120
  | GCodeFeedStop => Some 120
  | GCodeSelectCoordinateSystem => Some 190
  | GCodeIO => Some 70
  | GCodeToolChange => Some 80
  | GCodeToolSetCurrent => Some 80
  | GCodeSet => Some 230
  | GCodeGotoPredefinedPosition => Some 230
  | GCodeSetPredefinedPosition => Some 230
  | GCodeMoveInMachineCoords => Some 240
  | GCodeCoordSystemOffset => Some 230
  | GCodeResetCoordSystemOffset => Some 230
  | GCodeRestoreCoordSystemOffset => Some 230
  | GCodeUserDefined => Some 130
  | _ => None
  end.

(** unit_id: own definition, [None] if inherited *)
Definition own_unit_id (c : gclass) : option Z :=
  match c with
  | GCodeUseInches => Some 0
  | GCodeUseMillimeters => Some 1
  | _ => None
  end.

(** coord_system_id: own definition, [None] if inherited *)
Definition own_coord_system_id (c : gclass) : option (option Z) :=
  match c with
  | GCodeSelectCoordinateSystem => Some None
  | GCodeSelectCoordinateSystem1 => Some (Some 1)
  | GCodeSelectCoordinateSystem2 => Some (Some 2)
  | GCodeSelectCoordinateSystem3 => Some (Some 3)
  | GCodeSelectCoordinateSystem4 => Some (Some 4)
  | GCodeSelectCoordinateSystem5 => Some (Some 5)
  | GCodeSelectCoordinateSystem6 => Some (Some 6)
  | GCodeSelectCoordinateSystem7 => Some (Some 7)
  | GCodeSelectCoordinateSystem8 => Some (Some 8)
  | GCodeSelectCoordinateSystem9 => Some (Some 9)
  | _ => None
  end.

(** normal_axis: own definition, [None] if inherited *)
Definition own_normal_axis (c : gclass) : option (option letter) :=
  match c with
  | GCodePlaneSelect => Some None
  | GCodeSelectXYPlane => Some (Some LZ)
  | GCodeSelectZXPlane => Some (Some LY)
  | GCodeSelectYZPlane => Some (Some LX)
  | _ => None
  end.

(** plane_axes: own definition, [None] if inherited *)
Definition own_plane_axes (c : gclass) : option (list letter) :=
  match c with
  | GCodePlaneSelect => Some []
  | GCodeSelectXYPlane => Some [LX; LY]
  | GCodeSelectZXPlane => Some [LZ; LX]
  | GCodeSelectYZPlane => Some [LY; LZ]
  | _ => None
  end.

(** _process: own definition, [None] if inherited *)
Definition own_process (c : gclass) : option proc :=
  match c with
  | GCode => Some PNothing
  | GCodeMotion => Some PMove
  | GCodeRapidMove => Some PMove
  | GCodeDwell => Some PNothing
  | GCodeCancelCannedCycle => Some PCancelMotion
  | GCodeCannedCycle => Some PCanned
  | _ => None
  end.

(** word_value_configurable: own definition, [None] if inherited *)
Definition own_word_value_configurable (c : gclass) : option bool :=
  match c with
  | GCode => Some false
  | GCodeLineNumber => Some true
  | GCodeProgramName => Some true
  | GCodeFeedRate => Some true
  | GCodeSpindleSpeed => Some true
  | GCodeSelectTool => Some true
  | _ => None
  end.

