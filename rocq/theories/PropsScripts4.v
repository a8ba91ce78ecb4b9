(** Property C84: the final actions of pygcode-norm. *)
From Coq Require Import Ascii String List Bool Arith ZArith QArith Qcanon Permutation Lia.
From Verif Require Import Base Num BaseFacts Words WordsSpec GTable GCode GCodeSpec Line Position Machine Transform Float64 ArithSpec ModeSpec PropsMode MachSpec MachProofs2 PrintSpec PrintProofs BlockSpec PropsBlock PropsMach TransSpec PropsTrans SimSpec SimProofs
  Scripts ScriptsSpec ScriptsSpec2 ScriptsSpec3 ScriptsSpec4 ScriptsProofs ScriptsProofs4 ScriptsProofs5 ScriptsProofs7 ScriptsProofs8 PropsScripts2 PropsScripts3.
Import ListNotations.
Local Open Scope nat_scope.

(** ** C84: --zero_xy, --zero_z, --spindle_off *)
(** the lines printed at the end, run where the program ended: X and Y end at 0 with --zero_xy, Z at 0 with --zero_z (else at the
    height of the way across), the spindle is off with --spindle_off; nothing else changes, and X and Y only move at the height of the
    way across, which is the one given, else one that no Z after any line of the program is above.
    Missing: a height that does not print without loss (refuted below), --rm_gcodes and --rm_whitespace *)
Theorem C84_final_partial : forall (ar : Arith) (o : options) (m0 : machine) (file : list text) (tr : list (line * machine)), accurate ar -> idempotent ar -> monotone ar ->
  new_machine xyz (o_rm_invalid_modal o) (o_machine_mode o) = Ok m0 -> in_sync m0 -> reading m0 file tr -> o_rm_gcodes o = [] -> o_rm_whitespace o = false ->
  let m := after m0 tr in (o_zero_xy o = true -> forall h, safe_height o m h -> readable (Word LZ (VFloat h))) ->
  exists h out fin, norm_final o m = (out, Ok tt) /\ reading m (printed out) fin /\ finalized o h m (after m fin) /\ crosses_at h m (map snd fin) /\
    match o_height o with Some x => h = x | None => Forall (fun x => forall z, pos_at (snd x) AZ z -> (z <= h)%Qc) tr end.
Proof.
  intros ar o m0 file tr acc ID MO E Y R RG RW m H. pose proof (reading_good _ _ m0 file tr acc ID E Y R) as G. fold m in G. destruct (height_exists o m) as (h & SH); [apply G|apply G|].
  destruct (final_reads o h m acc ID G RG RW) as (out & n & N & (fin & RF & AF & CF) & FI & _); [auto|]. exists h, out, fin. split; auto. split; [apply reading_newline; auto|]. split; [rewrite AF; auto|]. split; auto.
  unfold safe_height in SH. destruct (o_height o) eqn:O; auto. eapply highest; eauto.
Qed.
Print Assumptions C84_final_partial.
Lemma finalizing_loop {ar : Arith} zxy zz height so fuel ls : forall m, norm_loop (finalizing zxy zz height so) fuel ls m = norm_loop no_options fuel ls m.
Proof.
  induction ls as [|s r IH]; intros m; cbn [norm_loop]; auto. change (norm_line (finalizing zxy zz height so) fuel s m) with (norm_line no_options fuel s m). destruct (norm_line no_options fuel s m) as [o [m1|e]]; cbn [pbind]; auto. rewrite IH. reflexivity.
Qed.
(** the whole script with these options: the program as before, then the final actions *)
Theorem C84_program_partial : forall (ar : Arith) (zxy zz : bool) (height : option Qc) (so : bool) (fuel : nat) (file : list text) (m0 : machine) (tr : list (line * machine)), accurate ar -> idempotent ar -> monotone ar ->
  new_machine xyz false norm_machine_mode = Ok m0 -> in_sync m0 -> reading m0 file tr -> Forall (fun x => faithful (fst x)) tr ->
  let o := finalizing zxy zz height so in (zxy = true -> forall h, safe_height o (after m0 tr) h -> readable (Word LZ (VFloat h))) ->
  exists out h tr' fin, norm o fuel file = (out, Ok tt) /\ reading m0 (printed out) (tr' ++ fin) /\ same_reading tr tr' /\
    let m := after m0 tr' in finalized o h m (after m fin) /\ crosses_at h m (map snd fin) /\
    match height with Some x => h = x | None => Forall (fun x => forall z, pos_at (snd x) AZ z -> (z <= h)%Qc) tr end.
Proof.
  intros ar zxy zz height so fuel file m0 tr acc ID MO E Y R FA o H. destruct (new_machine_sound _ _ _ _ E) as (S & I & _ & X & _).
  destruct (reading_back file acc m0 m0 tr S I S I (same_machine_refl m0) R FA) as (tr' & R' & SR & _).
  assert (SM : same_machine (after m0 tr) (after m0 tr')).
  { rewrite !after_last. clear -SR. assert (Q : forall d d', same_machine d d' -> same_machine (last (map snd tr) d) (last (map snd tr') d')); [|apply Q, same_machine_refl]. induction SR as [|x y l l' [_ SM] SR IH]; intros d d' D; auto. cbn [map]. rewrite !last_cons. apply IH. auto. }
  pose proof (reading_good _ _ m0 _ tr' acc ID E Y R') as G. destruct (height_exists o (after m0 tr')) as (h & SH); [apply G|apply G|].
  assert (SH' : safe_height o (after m0 tr) h).
  { unfold safe_height in *. destruct (o_height o); auto. destruct SM as (_ & ST & _ & _ & MX & AX_ & _). unfold abs2work, coord_sys_offset in *. rewrite ST, MX, AX_. exact SH. }
  destruct (final_reads o h (after m0 tr') acc ID G eq_refl eq_refl) as (out & n & N & (fin & RF & AF & CF) & FI & _); [auto|].
  exists (map (fun x => line_str (fst x)) tr ++ out), h, tr', fin. split; [|split; [|split; [auto|split; [rewrite AF; auto|split; auto]]]].
  - unfold norm. change (o_rm_invalid_modal o) with false. change (o_machine_mode o) with norm_machine_mode. rewrite E. cbn [pure pbind app]. assert (L : norm_loop o fuel file m0 = (map (fun x => line_str (fst x)) tr, Ok (after m0 tr))) by (unfold o; rewrite finalizing_loop; apply norm_loop_ok; eauto).
    rewrite L. cbn [pbind]. rewrite (norm_final_same o _ _ SM), N. reflexivity.
  - unfold printed. rewrite map_app. apply reading_app; apply reading_newline; auto.
  - unfold safe_height in SH'. change (o_height o) with height in *. destruct height; auto. eapply highest; eauto.
Qed.
Print Assumptions C84_program_partial.

(** three lines, the last in incremental mode: G90 is written; the greatest Z was 5 *)
Definition final_file : list text := lines ["G1 F100 X10 Y5 Z-2"; "Z5 M3"; "G91 Z-3"]%string.
Definition final_out : list text := map t ["G01 X10 Y5 Z-2 F100"; "M03 Z5"; "G91 Z-3"; "; pygcode-norm: finalizing"; "G90"; "M05 ; spindle off"; "G00 Z5 ; move to safe height"; "G00 X0 Y0 ; move to planar origin"; "G00 Z0 ; move to zero height"]%string.

Definition sync_b (m : machine) : bool := match gm_get (m_mode m) MG_coordinate_system with Some g => match coord_system_id (gcls g), cur_coord_sys (m_state m) with Some (Some i), Some j => Z.eqb i j | _, _ => false end | None => true end.
Lemma sync_ex m : sync_b m = true -> in_sync m.
Proof. unfold sync_b. intros H g G. rewrite G in H. destruct (coord_system_id (gcls g)) as [[i|]|]; try discriminate. destruct (cur_coord_sys (m_state m)); try discriminate. apply Z.eqb_eq in H. congruence. Qed.
(** runs [file] on the machine of the script: whether it ends well and [f] accepts the first and the last state *)
Definition norm_to (f : machine -> machine -> bool) (file : list text) : bool :=
  match new_machine (ar := binary64) xyz false norm_machine_mode with Ok m => match steps (map (process_str (ar := binary64)) file) m with (m', Ok _) => f m m' | _ => false end | _ => false end.
Lemma norm_to_reading f file : norm_to f file = true -> exists m tr, new_machine (ar := binary64) xyz false norm_machine_mode = Ok m /\ reading (ar := binary64) m file tr /\ f m (after m tr) = true.
Proof.
  unfold norm_to. destruct (new_machine (ar := binary64) xyz false norm_machine_mode) as [m|]; [|discriminate]. destruct (steps (map (process_str (ar := binary64)) file) m) as [m1 [[]|]] eqn:E; [|discriminate]. intros H. apply steps_reading in E as (tr & R & A). exists m, tr. rewrite A. auto.
Qed.
Definition height_b (m : machine) : bool := match abs2work (ar := binary64) m (m_max m) with Ok p => match pos_getattr p AZ with Ok h => readable_b (ar := binary64) (Word LZ (VFloat h)) | _ => true end | _ => true end.
Example C84_ex : exists m tr, new_machine (ar := binary64) xyz false norm_machine_mode = Ok m /\ in_sync m /\ reading (ar := binary64) m final_file tr /\ Forall (fun x => faithful (ar := binary64) (fst x)) tr /\
  (forall h, safe_height (ar := binary64) (finalizing (ar := binary64) true true None true) (after m tr) h -> readable (ar := binary64) (Word LZ (VFloat h))) /\
  norm (ar := binary64) (finalizing (ar := binary64) true true None true) 0 final_file = (final_out, Ok tt).
Proof.
  destruct (norm_to_reading (fun m n => sync_b m && height_b n) final_file) as (m & tr & E & R & H); [vm_compute; reflexivity|]. apply andb_true_iff in H as [H1 H2]. exists m, tr. split; [exact E|]. split; [apply sync_ex; auto|]. split; [exact R|]. split; [|split; [|vm_compute; reflexivity]].
  - clear E H1 H2. unfold final_file, lines, printed in R. cbn [map] in R. repeat (apply reading_step in R as (l & ? & ? & L & _ & R & <-); read_line L; constructor; [cbn [fst]; faithful_line|]). apply reading_empty in R. subst. constructor.
  - unfold safe_height. cbn [o_height finalizing]. intros h (p & P & G). unfold height_b in H2. rewrite P, G in H2. apply readable_ex; auto. exact I.
Qed.
(** a height of more than three decimals is not the height reached: the way across is at Z0 *)
Theorem C84_height_refuted : exists file h out x, norm (ar := binary64) (finalizing (ar := binary64) true false (Some h) false) 0 file = (out, Ok tt) /\ run_file (printed out) = Ok x /\ (Q2Qc 0 < h)%Qc /\ snd x = map t ["0"; "0"; "0"]%string.
Proof. exists (lines ["G1 F100 X1 Y1"]%string), (rnd64 (frac 4 10000)). do 2 eexists. split; [vm_compute; reflexivity|]. split; [vm_compute; reflexivity|]. split; [vm_compute; reflexivity|]. vm_compute. reflexivity. Qed.
Print Assumptions C84_height_refuted.
(** in a program that ends with M30 (or M2) the final actions are printed behind the end: a controller does not get to them *)
Theorem C84_end_refuted : exists file before s behind l, norm (ar := binary64) (finalizing (ar := binary64) true true None true) 0 file = (before ++ s :: behind, Ok tt) /\ mk_line (ar := binary64) s = Ok l /\ ends_program l /\
  In (t "M05 ; spindle off") behind /\ In (t "G00 X0 Y0 ; move to planar origin") behind /\ forall x, In x before -> ~ In x (map t ["M05 ; spindle off"; "G00 X0 Y0 ; move to planar origin"]%string).
Proof.
  exists (lines ["G1 F100 X10 Y5 Z-2 M3"; "M30"]%string), [t "G01 X10 Y5 Z-2 F100 M03"], (t "M30"), (map t ["; pygcode-norm: finalizing"; "M05 ; spindle off"; "G00 Z0 ; move to safe height"; "G00 X0 Y0 ; move to planar origin"; "G00 Z0 ; move to zero height"]%string). eexists.
  split; [vm_compute; reflexivity|]. split; [vm_compute; reflexivity|]. split; [eexists; split; [left; reflexivity|right; left; reflexivity]|]. split; [right; left; reflexivity|]. split; [do 3 right; left; reflexivity|].
  intros x [<-|[]] [Q|[Q|[]]]; discriminate Q.
Qed.
Print Assumptions C84_end_refuted.
