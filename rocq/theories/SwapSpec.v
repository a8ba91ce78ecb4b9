(** X and Y exchanged: in a text, in words and gcodes, in positions and machines. *)
From Coq Require Import Ascii String List Bool ZArith QArith Qcanon.
From Verif Require Import Base Num Words GTable GCode Line Position Machine.
Import ListNotations.

(** every x of a text becomes a y and every y an x, in both cases *)
Definition flip (c : ascii) : ascii :=
  if Ascii.eqb c "X" then "Y" else if Ascii.eqb c "Y" then "X" else if Ascii.eqb c "x" then "y" else if Ascii.eqb c "y" then "x" else c.
Definition swap_text (s : text) : text := map flip s.

Definition swap_letter (l : letter) : letter := match l with LX => LY | LY => LX | _ => l end.
Definition swap_axis (a : axis) : axis := match a with AX => AY | AY => AX | _ => a end.
(** numbers stay; only the names of subprograms (O words) are texts that may have an x or y *)
Definition swap_value (v : value) : value := match v with VStr s => VStr (swap_text s) | _ => v end.
Definition swap_word (w : word) : word := Word (swap_letter (wletter w)) (swap_value (wvalue w)).
Definition swap_gcode (g : gcode) : gcode :=
  MkGCode (gcls g) (swap_word (gword g)) (map (fun kv => (swap_letter (fst kv), swap_word (snd kv))) (gparams g)) (gwhite g).

Definition swap9 {A} (v : v9 A) : v9 A := V9 (v_Y v) (v_X v) (v_Z v) (v_A v) (v_B v) (v_C v) (v_U v) (v_V v) (v_W v).
Definition swap_pos (p : position) : position := Pos (swap9 (paxes p)) (punit p) (swap9 (pvals p)).
Definition map_modes {A B} (f : A -> B) (m : gmap A) : gmap B :=
  GMap (option_map f (gm_motion m)) (option_map f (gm_plane_selection m)) (option_map f (gm_distance m)) (option_map f (gm_arc_ijk_distance m)) (option_map f (gm_feed_rate_mode m)) (option_map f (gm_units m)) (option_map f (gm_cutter_diameter_comp m)) (option_map f (gm_tool_length_offset m)) (option_map f (gm_canned_cycles_return m)) (option_map f (gm_coordinate_system m)) (option_map f (gm_control_mode m)) (option_map f (gm_spindle_speed_mode m)) (option_map f (gm_lathe_diameter m)) (option_map f (gm_stopping m)) (option_map f (gm_spindle m)) (option_map f (gm_coolant m)) (option_map f (gm_override_switches m)) (option_map f (gm_user_defined m)) (option_map f (gm_feed_rate m)) (option_map f (gm_spindle_speed m)) (option_map f (gm_tool m)).
Definition swap_table (c : coord_table) : coord_table := match c with CSDict d => CSDict (map (fun kv => (fst kv, swap_pos (snd kv))) d) | CSInts l => CSInts l end.
Definition swap_state (s : state) : state := State (swap_table (coord_systems s)) (cur_coord_sys s) (swap_pos (st_offset s)).
Definition swap_machine (m : machine) : machine :=
  Machine (map_modes swap_gcode (m_mode m)) (swap_state (m_state m)) (swap_pos (m_abs m)) (swap_pos (m_min m)) (swap_pos (m_max m)) (swap9 (m_axes m)) (m_ignore m).

(** the planes that single out X or Y *)
Definition tilted (c : gclass) : Prop := c = GCodeSelectZXPlane \/ c = GCodeSelectYZPlane.
Definition level_machine (m : machine) : Prop := forall g, gm_get (m_mode m) MG_plane_selection = Some g -> ~ tilted (gcls g).
Definition level_line {ar : Arith} (s : text) : Prop := forall l g, mk_line s = Ok l -> In g (bgcodes (lblock l)) -> ~ tilted (gcls g).
