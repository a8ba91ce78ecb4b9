(** C99: pygcode-crop prints numbers with few decimals; how far the cropped program may be from the one read. *)
From Coq Require Import Ascii Bool Arith ZArith QArith Qcanon Qabs Permutation Lia Lqa String List.
From Verif Require Import Base Num Words GTable GCode Line Position Machine Transform BaseFacts NumFacts WordOrder ArithSpec Float64 WordsSpec LineSpec PrintSpec PrintProofs PrintProofs2 PropsPrint GCodeSpec GCodeProofs GTableProofs GCodeProofs2 PropsGCode BlockSpec PropsBlock BlockProofs LineProofs PosSpec PosProofs ModeSpec ModeProofs MachSpec MachProofs MachProofs2 MachProofs3 PropsMach SimSpec SimProofs TransSpec PropsTrans
  Scripts ScriptsSpec ScriptsSpec2 ScriptsSpec3 ScriptsProofs ScriptsProofs4 ScriptsProofs5 ScriptsProofs6 ScriptsProofs7 PropsScripts PropsScripts2 PropsScripts3 PropsScripts5 ScriptsSpec12 ScriptsProofs21 ScriptsProofs22 PropsScripts14 ScriptsSpec13 ScriptsProofs23.
Import ListNotations.
Local Open Scope nat_scope.

(** [a]: the lines removed in front, [b]: those kept. The lines printed in front lift the tool to within one unit of error of the highest
    coordinate [a] reached, move it over the place where [b] starts and lower it there, again within one unit of error and in the same modes.
    The kept lines then have the same commands, and after each the machine is within one unit of error of where it was, plus one for every
    incremental move among [b] so far. As in C71 the kept lines name their motion before they rely on it, or the motion in force was G0 *)
Theorem C99_crop : forall (ar : Arith) (M : Q) (K : nat) (first last : condition) (rd unread : list text) (a b c : list (line * machine)) (m0 : machine),
  accurate ar -> monotone ar -> idempotent ar -> (0 <= M <= 999999)%Q -> null_machine = Ok m0 ->
  reading m0 rd (a ++ b ++ c) -> selection first last a b c -> (c = [] -> unread = []) -> b <> [] ->
  let m := after m0 a in absolute m -> recoverable m -> Forall (fun x => legible (fst x) /\ modest M (fst x)) b -> spans M (after m0 (a ++ b)) ->
  run_strides m b K -> (inject_Z (Z.of_nat (1 + K)) * unit_error M <= M + 1000)%Q ->
  exists pre tr, crop (first, last) (rd ++ unread) = (pre ++ map (fun x => line_str (fst x)) b, Ok tt) /\
    reading m0 (printed pre) tr /\ follows false (unit_error M) m (after m0 tr) /\ rapid_mode (after m0 tr) /\
    (forall ax, upright m ax -> exists hi top, pos_getattr (m_max m) ax = Ok hi /\ off_by (unit_error M) hi top /\ approaches m0 (after m0 tr) ax top tr) /\
    (names_motion (map fst b) -> exists b', reading m0 (printed (pre ++ map (fun x => line_str (fst x)) b)) (tr ++ b') /\ trails M false 0 m b b') /\
    (rapid_mode m -> exists b', reading m0 (printed (pre ++ map (fun x => line_str (fst x)) b)) (tr ++ b') /\ trails M true 0 m b b').
Proof.
  intros ar M K f l rd un a b c m0 acc MO ID [M0 M6] E R SEL U NB m A RC LG SP RS EM. destruct (null_steady m0 acc E) as (S0 & I0 & Y0 & O0 & X0 & _).
  destruct (reading_split _ _ _ _ R) as (fa & fbc & -> & Ra & Rbc). destruct (reading_split _ _ _ _ Rbc) as (fb & fc & -> & Rb & _). clear Rbc.
  destruct (reading_steady fa ID m0 a S0 I0 Y0 Ra) as (S & I & Y & KP). fold m in S, I, Y, KP, Rb. rewrite after_app in SP. fold m in SP.
  destruct (reading_wider MO fb m b S I Rb) as (WD & S2 & _ & A2).
  assert (SM : spans M m) by (eapply spans_back; [exact S|exact I|exact S2|exact A2|exact WD|exact SP]).
  assert (F : fine m) by (split; auto; split; auto; split; [intros k Kk; apply (null_offsets m0 k E); eapply keeps_trans; [exact KP|exact Kk]|destruct Y as (_ & _ & YF); exact YF]).
  destruct (preamble_recovers acc ID M M0 M6 m0 m E F Y KP A RC SM) as (pre & tr & P & RT & RM & RP & SN & IN & AP).
  assert (F' : fine (mfit m)) by (apply (mfit_fine acc ID M M6); auto). pose proof (mfit_like acc ID M M0 M6 m S I RC SM) as ML.
  assert (T1 : (unit_error M <= times M (1 + 0))%Q) by (unfold times; change (inject_Z (Z.of_nat (1 + 0))) with 1%Q; lra).
  destruct (reading_rounded acc MO ID M M0 M6 fb m (mfit m) b 0 K F F' (like_le M _ _ _ _ T1 ML) Rb LG SP RS EM) as (tr' & R' & RD).
  pose proof F' as (SF & IF & _).
  assert (KEPT : forall bb, like bb (mfit m) (after m0 tr) -> (bb = true \/ names_motion (map fst b)) -> exists b', reading m0 (printed (pre ++ map (fun x => line_str (fst x)) b)) (tr ++ b') /\ trails M bb 0 m b b').
  { intros bb LK NM. destruct (kept_trails M (map (fun x => line_str (fst x)) b) bb 0 m b (mfit m) tr' (after m0 tr) RD R' SF IF SN IN LK NM) as (b' & Rb' & TR). exists b'. split; [|exact TR]. apply reading_newline. apply reading_app; auto. }
  exists pre, tr. split.
  { apply (C70_cropped ar f l _ m0 _ E). exists (fa ++ fb ++ fc), un, a, b, c. split; auto. split; auto. split; auto. split; auto. right. exists pre. split; auto. destruct b; [contradiction|discriminate]. }
  split; [apply reading_newline; exact RT|]. split.
  { eapply like_follows; [exact SF| |split; [exact RM|discriminate]]. eapply mlike_mono; [|exact ML]. apply wrel_back. }
  split; [exact RP|]. split.
  { intros ax UP. destruct (AP ax UP) as (top & O & AX). exists (pval (m_max m) ax), top. split; [|auto]. apply getattr_ok. split; auto. pose proof S as ((_ & Z & _) & _ & (_ & HH & _) & _). apply HH. unfold has. rewrite Z. destruct KP as (KX & _). rewrite KX, X0.
    destruct UP as [(pl & _ & IP)|[_ ->]]; [cbn [In planes] in IP; destruct IP as [IP|[IP|[IP|[]]]]; injection IP as _ <-; reflexivity|reflexivity]. }
  split; [intros NM; apply KEPT; auto; split; [exact RM|discriminate]|].
  intros (h & H & HC & HP). apply KEPT; auto. split; [exact RM|]. intros _. split; [exact RM|]. destruct RP as (g & G & GC & GP). rewrite G.
  assert (GF : gm_get (m_mode (mfit m)) MG_motion = Some (gback h)) by (cbn [mfit m_mode]; rewrite gm_get_map, H; reflexivity). rewrite GF. destruct SF as (_ & _ & _ & _ & _ & _ & TF), SN as (_ & _ & _ & _ & _ & _ & TN).
  apply rapid_word; eauto. cbn [gback gparams]. rewrite HP. reflexivity.
Qed.
Print Assumptions C99_crop.

(** ** an example: the last kept line relies on the motion named in the first one *)
Definition recoverable_b {ar : Arith} (m : machine) : bool :=
  match gm_get (m_mode m) MG_motion with Some g => negb (subclass (gcls g) GCodeCannedCycle) | None => true end &&
  match gm_get (m_mode m) MG_spindle_speed_mode with Some g => negb (gclass_eqb (gcls g) GCodeSpindleConstantSurfaceSpeedMode) | None => true end &&
  forallb (fun g => forallb legible_word_b (gword g :: map snd (gparams g))) (mode_gcodes (m_mode m)) &&
  match gm_get (m_mode m) MG_plane_selection with Some g => existsb (gclass_eqb (gcls g)) (map fst planes) | None => true end.
Lemma legible_word_ex {ar : Arith} w : word_wf w -> legible_word_b w = true -> legible_word w.
Proof.
  intros W H. unfold legible_word_b in H. assert (RB : readable_b w = true -> legible_word w) by (intros X; apply readable_ex in X as [X Y]; auto; split; auto).
  destruct (letter_kind (wletter w)) eqn:K; auto. destruct (wvalue w) as [x| |] eqn:V; auto. split; [|intros y Y; congruence]. right. exists x. split; auto. split; auto. apply Qle_bool_iff. exact H.
Qed.
Lemma recoverable_ex {ar : Arith} m : sound m -> recoverable_b m = true -> recoverable m.
Proof.
  intros S H. unfold recoverable_b in H. apply andb_true_iff in H as [H HPL]. apply andb_true_iff in H as [H HWO]. apply andb_true_iff in H as [H HSP]. destruct S as (_ & _ & _ & _ & _ & W & T). split; [|split; [|split]].
  - intros g G C. rewrite G in H. apply subclass_derives in C. rewrite C in H. discriminate.
  - intros g G C. rewrite G in *. rewrite C in *. discriminate.
  - intros mg g G. rewrite forallb_forall in HWO. assert (I : In g (mode_gcodes (m_mode m))) by (apply mode_gcodes_in; eauto). specialize (HWO g I). rewrite forallb_forall in HWO. apply Forall_forall. intros w Iw. apply legible_word_ex; auto.
    destruct (T mg g G) as (_ & _ & W1 & W2). destruct Iw as [<-|Iw]; auto. apply in_map_iff in Iw as (kv & <- & Iw). rewrite Forall_forall in W2. apply (W2 kv Iw).
  - intros g G. rewrite G in *. apply existsb_exists in HPL as (c & I & E). apply gclass_eqb_eq in E. subst. auto.
Qed.
Definition rough_removed : list text := lines ["G90 G17 F99.99999 M3"; "G1 X1.23456 Y-2.00049 Z7.12345"]%string.
Definition rough_kept : list text := lines ["M8 (coolant)"; "G1 Z2.71828"; "X5.00051"; "G91 Y0.33333"; "Y0.33333"]%string.
Example C99_ex : exists m a b, null_machine (ar := binary64) = Ok m /\ reading (ar := binary64) m (rough_removed ++ rough_kept) (a ++ b ++ []) /\ selection (ar := binary64) (fun n _ => Ok (n =? 3)) (fun _ _ => Ok false) a b [] /\
  b <> [] /\ absolute (after m a) /\ recoverable (ar := binary64) (after m a) /\ Forall (fun x => legible (ar := binary64) (fst x) /\ modest 8 (fst x)) b /\ spans 8 (after m (a ++ b)) /\ run_strides (ar := binary64) (after m a) b 2 /\
  (inject_Z (Z.of_nat (1 + 2)) * unit_error 8 <= 8 + 1000)%Q /\ names_motion (map fst b) /\
  crop (ar := binary64) (fun n _ => Ok (n =? 3), fun _ _ => Ok false) (rough_removed ++ rough_kept) =
    (map t ["; machine mode before cropping"; "G01 G17 G90 M03 F100"; "; traverse into position, up, over, and down"; "G00 Z7.123"; "G00 X1.235 Y-2"; "G00 Z7.123"; ""; "M08 (coolant)"; "G01 Z2.718"; "X5.001"; "G91 Y0.333"; "Y0.333"], Ok tt)%string.
Proof.
  destruct (runs_reading (fun m => absolute_b m && recoverable_b (ar := binary64) m && match walk (ar := binary64) 8 rough_kept m with Some (m', k) => Nat.eqb k 2 && spans_b 8 m' | None => false end) rough_removed) as (m & a & E & RA & H); [vm_compute; reflexivity|].
  destruct (null_steady (ar := binary64) m binary64_accurate E) as (S & I & Y & _). destruct (reading_steady rough_removed binary64_idempotent m a S I Y RA) as (S1 & I1 & Y1 & _).
  apply andb_true_iff in H as [H HW]. apply andb_true_iff in H as [H1 H2]. destruct (walk (ar := binary64) 8 rough_kept (after m a)) as [[m' k]|] eqn:WK; [|discriminate HW]. apply andb_true_iff in HW as [HK HS]. apply Nat.eqb_eq in HK. subst k.
  destruct (walk_ex 8 rough_kept (after m a) m' 2 S1 I1 WK) as (b & RB & LG & RS & AF). exists m, a, b. split; [exact E|]. rewrite app_nil_r. assert (R : reading (ar := binary64) m (rough_removed ++ rough_kept) (a ++ b)) by (apply reading_app; auto). split; [exact R|].
  assert (LA : length a = 2) by (rewrite <- (reading_length _ _ _ RA); reflexivity). assert (LB : length b = 5) by (rewrite <- (reading_length _ _ _ RB); reflexivity).
  assert (SY : forall n g o x, In x (a ++ b) -> (forall p, g n p = Ok o) -> says (ar := binary64) g n (snd x) o).
  { intros n g o x Ix G. apply in_split in Ix as (u & v & EQ). rewrite EQ in R. change (u ++ x :: v) with (u ++ ([x] ++ v)) in R. rewrite app_assoc in R. apply reading_split in R as (f1 & f2 & _ & R1 & _). destruct (reading_steady f1 binary64_idempotent m _ S I Y R1) as (S2 & _). rewrite after_app in S2. change (after (after m u) [x]) with (snd x) in S2.
    destruct (machine_pos_spec _ S2) as (p & P & _). exists p. auto. }
  split.
  { split; [|split; [|split]].
    - intros i x N. apply SY; [apply in_or_app; left; eapply nth_error_In; eauto|]. intros p. assert (L : i < 2) by (rewrite <- LA; apply nth_error_Some; congruence). destruct i as [|[|]]; auto. lia.
    - intros x r N. rewrite app_nil_r in N. apply SY; [apply in_or_app; right; rewrite N; left; auto|]. intros p. rewrite LA. reflexivity.
    - intros i x N. apply SY; [apply in_or_app; right; eapply nth_error_In; eauto|]. auto.
    - left. auto. }
  split; [intros Q; rewrite Q in LB; discriminate LB|]. split; [apply absolute_ex; auto|]. split; [apply recoverable_ex; auto|]. split; [exact LG|]. split; [rewrite after_app, AF; apply spans_ex; exact HS|]. split; [exact RS|]. split; [intros X; discriminate X|].
  split; [|vm_compute; reflexivity]. clear -RB. unfold rough_kept, lines, printed in RB. cbn [map] in RB. apply reading_step in RB as (l1 & ? & ? & L1 & _ & RB & <-). apply reading_step in RB as (l2 & ? & ? & L2 & _ & RB & <-). read_line L1. read_line L2.
  cbn [map fst]. apply nm_later; [reflexivity|]. apply nm_here; [reflexivity|]. eexists. split; [left; reflexivity|reflexivity].
Qed.
