(** How words make gcodes, stated without the linking algorithm of words2gcodes. *)
From Coq Require Import Ascii String List Bool Arith ZArith QArith Qcanon Permutation.
From Verif Require Import Base Num Words GTable GCode.
Import ListNotations.

(** letter [l] is one of the parameter letters of class [c] *)
Definition takes (c : gclass) (l : letter) : Prop := In l (param_letters c).

(** a gcode in the making: its class, its word, its parameter words in written order *)
Record group := Group { gr_class : gclass; gr_word : word; gr_params : list word }.
Definition group_words (g : group) : list word := gr_word g :: gr_params g.

(** [grouped ws gs rest]: reading [ws] left to right, a word that some earlier gcode takes is a parameter of the
    last such gcode; any other word that names a class starts a gcode; all others are left over. *)
Inductive grouped {ar : Arith} : list word -> list group -> list word -> Prop :=
| gr_none : grouped [] [] []
| gr_param ws gs1 c g ps gs2 rest w :
    grouped ws (gs1 ++ Group c g ps :: gs2) rest ->
    takes c (wletter w) -> Forall (fun x => ~ takes (gr_class x) (wletter w)) gs2 ->
    grouped (ws ++ [w]) (gs1 ++ Group c g (ps ++ [w]) :: gs2) rest
| gr_start ws gs rest w c :
    grouped ws gs rest ->
    Forall (fun x => ~ takes (gr_class x) (wletter w)) gs -> word_gcode_class w = Some c ->
    grouped (ws ++ [w]) (gs ++ [Group c w []]) rest
| gr_left ws gs rest w :
    grouped ws gs rest ->
    Forall (fun x => ~ takes (gr_class x) (wletter w)) gs -> word_gcode_class w = None ->
    grouped (ws ++ [w]) gs (rest ++ [w]).

(** no letter twice among the parameters of one gcode *)
Definition unambiguous (g : group) : Prop := NoDup (map wletter (gr_params g)).
(** the gcode object of a group *)
Definition built (g : group) : gcode := MkGCode (gr_class g) (gr_word g) (map (fun w => (wletter w, w)) (gr_params g)) false.

(** a legal gcode: parameters allowed by the class, one per letter, each under its own letter *)
Definition legal (g : gcode) : Prop :=
  Forall (fun kv => fst kv = wletter (snd kv) /\ takes (gcls g) (fst kv)) (gparams g) /\ NoDup (map fst (gparams g)).

(** order preserving selection *)
Inductive subseq {A} : list A -> list A -> Prop :=
| ss_nil l : subseq [] l
| ss_take x a l : subseq a l -> subseq (x :: a) (x :: l)
| ss_skip x a l : subseq a l -> subseq a (x :: l).

(** same parameters whatever their order *)
Definition same_gcode (a b : gcode) : Prop :=
  gcls a = gcls b /\ gword a = gword b /\ Permutation (gparams a) (gparams b).

(** the words of a gcode written out, parameters in some order *)
Inductive written : gcode -> list word -> Prop :=
| wr g ps : Permutation ps (map snd (gparams g)) -> written g (gword g :: ps).

(** ** The documented codes (comment tables of gcodes.py:342-345, 386-396, 532-538, 614-617, 661, 685-687, 742, 767-770, 801-803,
    837, 859, 935-937, 975-976, 1001-1002, 1023-1031, 1200-1203, 1258-1271), values in tenths. Entries of classes that have no
    code of their own in the code (M70-M73, M101-M199) are left out; G5.3 (end of G5.2) is added. *)
Definition doc_codes : list (letter * Z * Z * gclass) :=
  let g a c := (LG, a, a, c) in let m a c := (LM, a, a, c) in
  [ g 0 GCodeRapidMove; g 10 GCodeLinearMove; g 20 GCodeArcMoveCW; g 30 GCodeArcMoveCCW; g 40 GCodeDwell; g 50 GCodeCublcSpline;
    g 51 GCodeQuadraticSpline; g 52 GCodeNURBS; g 53 GCodeNURBSEnd; (LG, 382, 385, GCodeStraightProbe); g 330 GCodeSpindleSyncMotion;
    g 331 GCodeRigidTapping; g 800 GCodeCancelCannedCycle;
    g 810 GCodeDrillingCycle; g 820 GCodeDrillingCycleDwell; g 830 GCodeDrillingCyclePeck; g 730 GCodeDrillingCycleChipBreaking;
    g 850 GCodeBoringCycleFeedOut; g 890 GCodeBoringCycleDwellFeedOut; g 760 GCodeThreadingCycle;
    g 900 GCodeAbsoluteDistanceMode; g 910 GCodeIncrementalDistanceMode; g 901 GCodeAbsoluteArcDistanceMode;
    g 911 GCodeIncrementalArcDistanceMode; g 70 GCodeLatheDiameterMode; g 80 GCodeLatheRadiusMode;
    g 930 GCodeInverseTimeMode; g 940 GCodeUnitsPerMinuteMode; g 950 GCodeUnitsPerRevolution;
    m 30 GCodeStartSpindleCW; m 40 GCodeStartSpindleCCW; m 50 GCodeStopSpindle; m 190 GCodeOrientSpindle;
    g 960 GCodeSpindleConstantSurfaceSpeedMode; g 970 GCodeSpindleRPMMode;
    m 70 GCodeCoolantMistOn; m 80 GCodeCoolantFloodOn; m 90 GCodeCoolantOff;
    g 430 GCodeToolLengthOffset; g 431 GCodeDynamicToolLengthOffset; g 432 GCodeAddToolLengthOffset; g 490 GCodeCancelToolLengthOffset;
    m 0 GCodePauseProgram; m 10 GCodePauseProgramOptional; m 20 GCodeEndProgram; m 300 GCodeEndProgramPalletShuttle; m 600 GCodePalletChangePause;
    g 200 GCodeUseInches; g 210 GCodeUseMillimeters;
    g 170 GCodeSelectXYPlane; g 180 GCodeSelectZXPlane; g 190 GCodeSelectYZPlane; g 171 GCodeSelectUVPlane; g 181 GCodeSelectWUPlane;
    g 191 GCodeSelectVWPlane;
    g 400 GCodeCutterRadiusCompOff; g 410 GCodeCutterCompLeft; g 420 GCodeCutterCompRight; g 411 GCodeDynamicCutterCompLeft;
    g 421 GCodeDynamicCutterCompRight;
    g 610 GCodeExactPathMode; g 611 GCodeExactStopMode; g 640 GCodePathBlendingMode;
    g 980 GCodeCannedCycleReturnPrevLevel; g 990 GCodeCannedCycleReturnToR;
    m 480 GCodeSpeedAndFeedOverrideOn; m 490 GCodeSpeedAndFeedOverrideOff; m 500 GCodeFeedOverride; m 510 GCodeSpindleSpeedOverride;
    m 520 GCodeAdaptiveFeed; m 530 GCodeFeedStop;
    g 540 GCodeSelectCoordinateSystem1; g 550 GCodeSelectCoordinateSystem2; g 560 GCodeSelectCoordinateSystem3;
    g 570 GCodeSelectCoordinateSystem4; g 580 GCodeSelectCoordinateSystem5; g 590 GCodeSelectCoordinateSystem6;
    g 591 GCodeSelectCoordinateSystem7; g 592 GCodeSelectCoordinateSystem8; g 593 GCodeSelectCoordinateSystem9;
    m 620 GCodeDigitalOutputOnSyncd; m 630 GCodeDigitalOutputOffSyncd; m 640 GCodeDigitalOutputOn; m 650 GCodeDigitalOutputOff;
    m 660 GCodeWaitOnInput; m 670 GCodeAnalogOutputSyncd; m 680 GCodeAnalogOutputImmediate;
    m 60 GCodeToolChange; m 610 GCodeToolSetCurrent; g 100 GCodeSet;
    g 280 GCodeGotoPredefinedPosition; g 300 GCodeGotoPredefinedPosition; g 281 GCodeSetPredefinedPosition; g 301 GCodeSetPredefinedPosition;
    g 530 GCodeMoveInMachineCoords; g 920 GCodeCoordSystemOffset; g 921 GCodeResetCoordSystemOffset; g 922 GCodeResetCoordSystemOffset;
    g 923 GCodeRestoreCoordSystemOffset ]%Z.
Definition doc_letters : list (letter * gclass) :=
  [ (LN, GCodeLineNumber); (LO, GCodeProgramName); (LF, GCodeFeedRate); (LS, GCodeSpindleSpeed); (LT, GCodeSelectTool) ].

Section Documented.
Context {ar : Arith}.
(** the value of [w] is between those of the literals [lo]/10 and [hi]/10 *)
Definition in_tenths (lo hi : Z) (w : word) : Prop :=
  exists x, wvalue w = VFloat x /\ (rnd (frac lo 10) <= x)%Qc /\ (x <= rnd (frac hi 10))%Qc.
(** the documentation gives the word [w] the meaning [c] *)
Definition doc_class (w : word) (c : gclass) : Prop :=
  In (wletter w, c) doc_letters \/ exists lo hi, In (wletter w, lo, hi, c) doc_codes /\ in_tenths lo hi w.
(** class [c] of the code answers for the word [w]: by its key, or without a key by its matching function *)
Definition claims (c : gclass) (w : word) : Prop :=
  match word_key c with
  | Some k => word_eqb w k = true
  | None => exists f, word_matches c = Some f /\ matches f w = true
  end.
(** what [Word(letter, value)] makes *)
Definition constructed (w : word) : Prop := exists v, mk_word (wletter w) v = Ok w.
End Documented.

(** ** Documented order of execution, gcodes.py:110-137: in tenths, from .. to, and the stage *)
Definition doc_order : list (letter * Z * Z * Z) :=
  [ (LG, 930, 940, 30); (LM, 620, 680, 70); (LM, 60, 60, 80); (LM, 610, 610, 80); (LM, 30, 50, 90); (LM, 70, 90, 110); (LM, 480, 530, 120);
    (LG, 40, 40, 140); (LG, 170, 190, 150); (LG, 200, 210, 160); (LG, 400, 420, 170); (LG, 430, 430, 180); (LG, 490, 490, 180);
    (LG, 540, 593, 190); (LG, 610, 611, 200); (LG, 640, 640, 200); (LG, 900, 900, 210); (LG, 910, 910, 210); (LG, 980, 990, 220);
    (LG, 280, 280, 230); (LG, 300, 300, 230); (LG, 100, 100, 230); (LG, 920, 922, 230);
    (LG, 0, 30, 240); (LG, 330, 330, 240); (LG, 382, 385, 240); (LG, 730, 730, 240); (LG, 760, 760, 240); (LG, 800, 890, 240);
    (LM, 0, 20, 250); (LM, 300, 300, 250); (LM, 600, 600, 250) ]%Z.
Definition doc_order_letters : list (letter * Z) := [ (LF, 40); (LS, 50); (LT, 60) ]%Z.
Definition doc_stage {ar : Arith} (w : word) (s : Z) : Prop :=
  In (wletter w, s) doc_order_letters \/ exists lo hi, In (wletter w, lo, hi, s) doc_order /\ in_tenths lo hi w.

(** ** Documented modal groups, gcodes.py:45-71 (G80, which the code documents as left out of its group, is left out) *)
Definition doc_groups : list (letter * Z * Z * mgroup) :=
  [ (LG, 0, 30, MG_motion); (LG, 330, 330, MG_motion); (LG, 382, 385, MG_motion); (LG, 730, 730, MG_motion); (LG, 760, 760, MG_motion);
    (LG, 810, 890, MG_motion);
    (LG, 170, 191, MG_plane_selection); (LG, 900, 900, MG_distance); (LG, 910, 910, MG_distance);
    (LG, 901, 901, MG_arc_ijk_distance); (LG, 911, 911, MG_arc_ijk_distance); (LG, 930, 950, MG_feed_rate_mode); (LG, 200, 210, MG_units);
    (LG, 400, 421, MG_cutter_diameter_comp); (LG, 430, 431, MG_tool_length_offset); (LG, 490, 490, MG_tool_length_offset);
    (LG, 980, 990, MG_canned_cycles_return); (LG, 540, 593, MG_coordinate_system); (LG, 610, 611, MG_control_mode); (LG, 640, 640, MG_control_mode);
    (LG, 960, 970, MG_spindle_speed_mode); (LG, 70, 80, MG_lathe_diameter);
    (LM, 0, 20, MG_stopping); (LM, 300, 300, MG_stopping); (LM, 600, 600, MG_stopping); (LM, 30, 50, MG_spindle); (LM, 70, 90, MG_coolant);
    (LM, 480, 490, MG_override_switches) ]%Z.
(** Non-modal codes (Group 0) *)
Definition doc_nonmodal : list (letter * Z * Z) :=
  [ (LG, 40, 40); (LG, 100, 100); (LG, 280, 280); (LG, 300, 300); (LG, 530, 530); (LG, 920, 923) ]%Z.

(** ** Every way of making a gcode *)
Inductive constructible {ar : Arith} : gcode -> Prop :=
| con_word c w ps g : mk_gcode c w ps = Ok g -> constructible g
| con_kw c kws g : mk_gcode_kw c kws = Ok g -> constructible g
| con_set g l v g' : constructible g -> gcode_setattr g l v = Ok g' -> constructible g'
| con_copy g g' : constructible g -> modal_copy g = Ok g' -> constructible g'
| con_words ws gs rest g : words2gcodes ws = Ok (gs, rest) -> In g gs -> constructible g
| con_white g b : constructible g -> constructible (MkGCode (gcls g) (gword g) (gparams g) b).

(** two gcodes that may stand in one block *)
Definition compatible (a b : gcode) : Prop :=
  gword a <> gword b /\ ~ exists m, modal_group (gcls a) = Some m /\ modal_group (gcls b) = Some m.

(** [isinstance]: the class itself or a class it derives from *)
Inductive derives : gclass -> gclass -> Prop :=
| der_self c : derives c c
| der_parent c p b : parent c = Some p -> derives p b -> derives c b.
