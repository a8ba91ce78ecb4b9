(** Lemmas for C98: how far apart a program and its printed copy get. *)
From Coq Require Import Ascii String List Bool Arith ZArith QArith Qcanon Qabs Permutation Lia Lqa.
From Verif Require Import Base Num Words GTable GCode Line Position Machine BaseFacts NumFacts WordOrder ArithSpec WordsSpec LineSpec PrintSpec PrintProofs PrintProofs2 PropsPrint GCodeSpec GCodeProofs GTableProofs GCodeProofs2 PropsGCode BlockSpec BlockProofs LineProofs PosSpec PosProofs ModeSpec ModeProofs MachSpec MachProofs MachProofs2 MachProofs3 PropsMach SimSpec SimProofs
  Scripts ScriptsSpec ScriptsSpec2 ScriptsProofs ScriptsProofs4 ScriptsProofs7 ScriptsProofs8 ScriptsSpec12.
From Verif Require ScriptsProofs18 ScriptsProofs19 DrillProofs.
Import ListNotations.
Local Open Scope nat_scope.

(** ** distances *)
Lemma off_by_iff e (x y : Qc) : off_by e x y <-> (- e <= y - x <= e)%Q.
Proof. unfold off_by. rewrite this_sub. apply Qabs_bounds. Qed.
Lemma off_by_le e f x y : (e <= f)%Q -> off_by e x y -> off_by f x y.
Proof. intros H. rewrite !off_by_iff. intros [A B]. split; lra. Qed.
Lemma off_by_refl e x : (0 <= e)%Q -> off_by e x x.
Proof. intros H. apply off_by_iff. split; lra. Qed.
Lemma qmin_off e a b a' b' : off_by e a a' -> off_by e b b' -> off_by e (qmin a b) (qmin a' b').
Proof.
  rewrite !off_by_iff. intros A B. destruct (qmin_spec a b) as (H1 & H2 & H3), (qmin_spec a' b') as (K1 & K2 & K3). unfold Qcle in *.
  destruct H3 as [H3|H3], K3 as [K3|K3]; rewrite H3, K3 in *; split; lra.
Qed.
Lemma qmax_off e a b a' b' : off_by e a a' -> off_by e b b' -> off_by e (qmax a b) (qmax a' b').
Proof.
  rewrite !off_by_iff. intros A B. destruct (qmax_spec a b) as (H1 & H2 & H3), (qmax_spec a' b') as (K1 & K2 & K3). unfold Qcle in *.
  destruct H3 as [H3|H3], K3 as [K3|K3]; rewrite H3, K3 in *; split; lra.
Qed.

Lemma dget_filter_key {K V} (eqb : K -> K -> bool) (eqb_eq : forall a b, eqb a b = true <-> a = b) (f : K -> bool) (d : dict K V) k :
  dget eqb (filter (fun kv => f (fst kv)) d) k = if f k then dget eqb d k else None.
Proof.
  induction d as [|[j v] d IH]; cbn [filter dget fst]; [destruct (f k); auto|]. destruct (f j) eqn:J; cbn [dget]; rewrite IH; destruct (eqb k j) eqn:E; auto; apply eqb_eq in E; subst; rewrite J; auto.
Qed.
Local Transparent set_for.
Section WithArith.
Context {ar : Arith} (acc : accurate ar) (MO : monotone ar) (ID : idempotent ar).
Definition tiny : Q := 1 # 1099511627776.
Lemma rnd_off (x : Qc) N : (Qabs x <= N)%Q -> off_by (N * tiny + (3 # 1000000000)) x (rnd x).
Proof.
  intros B. assert (N0 : (0 <= N)%Q) by (eapply Qle_trans; [apply Qabs_nonneg|exact B]). assert (T : (0 < tiny)%Q) by reflexivity.
  assert (NT : (0 <= N * tiny)%Q) by nra.
  assert (A : forall y : Qc, (1 # 1000000000 <= Qabs y)%Q -> (Qabs (rnd y - y)%Qc <= Qabs y * tiny)%Q). { intros y H. destruct acc as [_ A]. exact (A y H). }
  destruct (Qlt_le_dec (Qabs x) (1 # 1000000000)) as [S|S].
  - set (c := frac 1 1000000000). set (d := frac (-1) 1000000000). assert (C : this c == 1 # 1000000000) by apply this_frac. assert (D : this d == - (1 # 1000000000)) by (unfold d; rewrite this_frac; reflexivity).
    apply Qlt_le_weak, Qabs_bounds in S. destruct S as [S1 S2].
    assert (H1 : (x <= c)%Qc) by (unfold Qcle; rewrite C; exact S2). assert (H2 : (d <= x)%Qc) by (unfold Qcle; rewrite D; exact S1).
    apply MO in H1. apply MO in H2. unfold Qcle in H1, H2.
    pose proof (A c) as Ac. pose proof (A d) as Ad. rewrite this_sub in Ac, Ad. rewrite C in Ac. rewrite D in Ad.
    assert (Q1 : Qabs (1 # 1000000000) == 1 # 1000000000) by reflexivity. assert (Q2 : Qabs (- (1 # 1000000000)) == 1 # 1000000000) by reflexivity. rewrite Q1 in Ac. rewrite Q2 in Ad.
    specialize (Ac ltac:(lra)). specialize (Ad ltac:(lra)). apply Qabs_bounds in Ac, Ad. unfold tiny in *. apply off_by_iff. split; lra.
  - specialize (A x S). rewrite this_sub in A. apply Qabs_bounds in A. apply off_by_iff. assert (P : (Qabs x * tiny <= N * tiny)%Q) by nra. split; lra.
Qed.
(** what is read back of a number *)
Definition print_err (M : Q) : Q := if Qle_bool M 999 then 1 # 1999 else (1 # 1999) + M / 199999.
Lemma print_err_bound M : (0 <= M)%Q -> (M <= 999999)%Q -> (0 <= print_err M <= 6)%Q.
Proof.
  intros A B. unfold print_err. destruct (Qle_bool M 999); [split; discriminate|]. assert (E : (M / 199999 == M * (1 # 199999))%Q) by reflexivity. rewrite E. split; lra.
Qed.
Lemma read_off M l (x : Qc) w' : letter_kind l = KFloat -> text2words (word_str (Word l (VFloat x))) = Ok [w'] -> (Qabs x <= M)%Q -> (M <= 999999)%Q ->
  exists y, w' = Word l (VFloat y) /\ off_by (print_err M) x y.
Proof.
  intros K T B NB. unfold print_err. destruct (Qle_bool M 999) eqn:S.
  - apply Qle_bool_iff in S. destruct (ScriptsProofs18.small_error acc ID l x K) as (y & T' & F & E); [lra|]. rewrite T' in T. injection T as <-. exists y. split; auto.
  - destruct (C06_error ar l x acc K) as (y & T' & E); [lra|]. rewrite T' in T. injection T as <-. exists y. split; auto. unfold off_by. eapply Qle_trans; [exact E|].
    assert (E1 : forall z, (z / 199999 == z * (1 # 199999))%Q) by reflexivity. rewrite !E1. lra.
Qed.

(** ** words and coordinates *)
Section Bound.
Context (M : Q) (M0 : (0 <= M)%Q) (M6 : (M <= 999999)%Q).
Definition wrel (w w' : word) : Prop := reads_back w w' /\ (coordinate_letter (wletter w) -> forall x, wvalue w = VFloat x -> (Qabs x <= M)%Q).
Notation glike := (like_gcode wrel).
Notation mlike := (like_machine wrel).
Lemma coordinate_kind l : coordinate_letter l -> letter_kind l = KFloat /\ letter_class l = CFloat.
Proof. intros [->|(a & ->)]; [split; reflexivity|]. destruct a; split; reflexivity. Qed.
Lemma wrel_value w w' : word_wf w -> wrel w w' -> coordinate_letter (wletter w) ->
  exists x y, wvalue w = VFloat x /\ wvalue w' = VFloat y /\ (Qabs x <= M)%Q /\ off_by (print_err M) x y.
Proof.
  intros W [[L E] B] C. destruct (coordinate_kind _ C) as [K LC]. destruct w as [l v]. cbn [wletter wvalue] in *. unfold word_wf in W. cbn [wletter wvalue] in W. rewrite LC in W. destruct v as [x| |]; try contradiction.
  specialize (B C x eq_refl). exists x. destruct E as [->|[_ T]].
  - exists x. cbn [wvalue]. split; auto. split; auto. split; auto. apply off_by_refl. apply print_err_bound; auto.
  - destruct (read_off M l x w' K T B M6) as (y & -> & O). exists y. cbn [wvalue]. auto.
Qed.
Definition crel (cs cs' : list coord) : Prop :=
  forall a, match dget axis_eqb cs a, dget axis_eqb cs' a with
            | None, None | Some None, Some None => True
            | Some (Some x), Some (Some y) => (Qabs x <= M)%Q /\ off_by (print_err M) x y
            | _, _ => False
            end.
Lemma coord_at_get cs a : NoDup (map fst cs) -> coord_at cs a = match dget axis_eqb cs a with Some o => o | None => None end.
Proof.
  unfold coord_at. induction cs as [|[b o] cs IH]; cbn [map fst some_coords flat_map dget]; auto. intros N. inversion N as [|? ? N1 N2]; subst. cbn [snd].
  assert (X : forall c, axis_eqb a b = true -> dget axis_eqb (some_coords cs) a = Some c -> False).
  { intros c E D. apply axis_eqb_eq in E. subst. apply (dget_in _ _ _ axis_eqb_eq) in D. apply some_coords_in in D. apply (in_map fst) in D. auto. }
  fold (some_coords cs). destruct o as [x|]; cbn [app dget]; destruct (axis_eqb a b) eqn:E; auto. destruct (dget axis_eqb (some_coords cs) a) eqn:D; auto. exfalso. eauto.
Qed.
Lemma coords_in m g : gcode_wf g -> forall a o, In (a, o) (gcode_coords m g) <-> vget (m_axes m) a = true /\ exists w, In (axis_letter a, w) (gparams g) /\ o = num_of_value (wvalue w).
Proof.
  intros (L & _). unfold gcode_coords. rewrite param_dict_legal by auto. intros a o. rewrite in_flat_map. split.
  - intros (kv & I & J). apply in_map_iff in I as ([l w] & <- & I). cbn [fst snd] in *. apply filter_In in I as [I F]. destruct (axis_of_letter l) as [b|] eqn:A; [|contradiction]. destruct J as [J|[]]. injection J as <- <-.
    apply (in_axis_letters m l) in F as (c & C & V). rewrite A in C. injection C as <-. split; auto. apply BaseFacts.axis_letter_of in A. subst. eauto.
  - intros (V & w & I & ->). exists (axis_letter a, wvalue w). pose proof (axis_of_axis_letter a) as A. split; [|cbn [fst snd]; rewrite A; left; auto].
    apply in_map_iff. exists (axis_letter a, w). split; auto. apply filter_In. split; auto. apply in_axis_letters. eauto.
Qed.
Lemma coords_get m g a : gcode_wf g -> dget axis_eqb (gcode_coords m g) a = if vget (m_axes m) a then option_map (fun w => num_of_value (wvalue w)) (dget letter_eqb (gparams g) (axis_letter a)) else None.
Proof.
  intros W. pose proof (coords_in m g W) as CI. destruct (gcode_coords_spec m g W) as [(_ & N & _) _]. destruct W as (L & _). destruct (vget (m_axes m) a) eqn:V.
  - destruct (dget letter_eqb (gparams g) (axis_letter a)) as [w|] eqn:D; cbn [option_map].
    + apply (in_dget _ _ _ axis_eqb_eq); auto. apply CI. split; auto. exists w. split; auto. apply (dget_in _ _ _ letter_eqb_eq). auto.
    + apply (dget_none _ _ _ axis_eqb_eq). intros I. apply in_map_iff in I as ([b o] & E & I). cbn [fst] in E. subst b. apply CI in I as (_ & w & I & _). apply (in_dget _ _ _ letter_eqb_eq) in I; [congruence|apply L].
  - apply (dget_none _ _ _ axis_eqb_eq). intros I. apply in_map_iff in I as ([b o] & E & I). cbn [fst] in E. subst b. apply CI in I as (V' & _). congruence.
Qed.
Lemma param_wf g l w : gcode_wf g -> dget letter_eqb (gparams g) l = Some w -> word_wf w /\ wletter w = l.
Proof.
  intros (L & _ & _ & F) D. apply (dget_in _ _ _ letter_eqb_eq) in D. rewrite Forall_forall in F. split; [apply (F _ D)|]. destruct L as [FL _]. rewrite Forall_forall in FL. destruct (FL _ D) as [E _]. auto.
Qed.
Lemma coords_rel m m' g g' : m_axes m' = m_axes m -> gcode_wf g -> gcode_wf g' -> glike g g' -> crel (gcode_coords m g) (gcode_coords m' g').
Proof.
  intros A W W' (_ & _ & P) a. rewrite !coords_get by auto. rewrite A. destruct (vget (m_axes m) a); auto. specialize (P (axis_letter a)).
  destruct (dget letter_eqb (gparams g) (axis_letter a)) as [w|] eqn:D, (dget letter_eqb (gparams g') (axis_letter a)) as [w'|]; cbn [option_map]; try contradiction; auto.
  destruct (param_wf _ _ _ W D) as [WW WL]. destruct (wrel_value w w' WW P) as (x & y & -> & -> & B & O). { rewrite WL. right. eauto. } cbn [num_of_value]. auto.
Qed.
Lemma getattr_rel g g' l : gcode_wf g -> glike g g' -> letter_kind l <> KFloat -> gcode_getattr g' l = gcode_getattr g l.
Proof.
  intros W (C & _ & P) K. unfold gcode_getattr. rewrite C. destruct (accepts (gcls g) l); auto. f_equal. specialize (P l). unfold pget. destruct (dget letter_eqb (gparams g) l) as [w|] eqn:D, (dget letter_eqb (gparams g') l) as [w'|]; try contradiction; auto.
  cbn [option_map]. destruct (param_wf _ _ _ W D) as [_ WL]. destruct P as [[_ [->|[K' _]]] _]; auto. congruence.
Qed.
Lemma crel_set cs cs' a (o o' : option Qc) : crel cs cs' -> match o, o' with None, None => True | Some x, Some y => (Qabs x <= M)%Q /\ off_by (print_err M) x y | _, _ => False end -> crel (dset axis_eqb cs a o) (dset axis_eqb cs' a o').
Proof. intros C H b. specialize (C b). rewrite !(dget_dset _ _ _ axis_eqb_eq). destruct (axis_eqb b a); auto. Qed.
Lemma crel_pop cs cs' a : NoDup (map fst cs) -> NoDup (map fst cs') -> crel cs cs' -> crel (dpop axis_eqb cs a) (dpop axis_eqb cs' a).
Proof. intros N N' C b. specialize (C b). rewrite !(dget_dpop _ _ _ axis_eqb_eq) by auto. destruct (axis_eqb b a); auto. Qed.
Lemma crel_at cs cs' a : crel cs cs' -> NoDup (map fst cs) -> NoDup (map fst cs') ->
  match coord_at cs a, coord_at cs' a with None, None => True | Some x, Some y => (Qabs x <= M)%Q /\ off_by (print_err M) x y | _, _ => False end.
Proof. intros C N N'. rewrite !coord_at_get by auto. specialize (C a). destruct (dget axis_eqb cs a) as [[x|]|], (dget axis_eqb cs' a) as [[y|]|]; auto. Qed.
Lemma crel_good m m' cs cs' : m_axes m' = m_axes m -> is_incremental m' = is_incremental m -> crel cs cs' -> NoDup (map fst cs) -> NoDup (map fst cs') -> good_coords m cs -> good_coords m' cs'.
Proof.
  intros A I C N N' [G1 G2]. unfold good_coords. rewrite A, I.
  assert (X : forall c, In c cs' -> exists o, In (fst c, o) cs /\ (forall x, o = Some x -> exists y, snd c = Some y)).
  { intros [a o'] J. cbn [fst snd]. apply (in_dget _ _ _ axis_eqb_eq) in J; auto. specialize (C a). rewrite J in C. destruct (dget axis_eqb cs a) as [o|] eqn:D; [|destruct o'; contradiction]. apply (dget_in _ _ _ axis_eqb_eq) in D.
    exists o. split; auto. intros x ->. destruct o' as [y|]; [eauto|contradiction]. }
  split.
  - intros c J V. destruct (X c J) as (o & K & H). destruct (G1 _ K V) as (x & E). cbn [snd] in E. eauto.
  - intros Z c J. destruct (X c J) as (o & K & H). apply (G2 Z _ K).
Qed.

(** ** moves *)
Notation keeps := MachProofs2.keeps.
Notation floating := ScriptsProofs19.floating.
Definition fine (m : machine) : Prop := sound m /\ inside m /\ (forall k, keeps m k -> no_offsets k) /\ floating m.
Lemma fine_here m : fine m -> no_offsets m. Proof. intros (_ & _ & O & _). apply O, keeps_refl. Qed.
Lemma moved_keeps m m1 cs : moved m m1 cs -> keeps m m1.
Proof. intros ((_ & S & A & I) & _ & U & _). unfold keeps. rewrite S. auto. Qed.
Lemma shift_plain m cs a x : no_offsets m -> float x -> shift m cs a x = if is_incremental m then rnd (x + oval (coord_at cs a))%Qc else match coord_at cs a with Some y => rnd y | None => x end.
Proof.
  intros O F. unfold shift. assert (A : forall y, apos_of m a y = rnd y). { intros y. unfold apos_of. destruct (O a) as [-> ->]. unfold fadd. assert (K : forall z, (z + Q2Qc 0)%Qc = z) by (intros; ring). rewrite !K. apply ID. }
  unfold target. rewrite (wpos_plain m a x ID O), F. rewrite A. destruct (is_incremental m); [unfold fadd; apply ID|]. destruct (coord_at cs a); auto. rewrite F. exact F.
Qed.
Lemma shift_float m cs a x : no_offsets m -> float (shift m cs a x).
Proof. intros O. unfold shift, apos_of, fadd. apply ID. Qed.
Lemma fine_moved m m1 cs : fine m -> moved m m1 cs -> fine m1.
Proof.
  intros F MV. pose proof (moved_keeps _ _ _ MV) as K. pose proof (fine_here m F) as O. destruct F as (S & I & OO & FL). destruct MV as (SF & S1 & U & V & I1 & R). split; auto. split; auto. split.
  - intros k Kk. apply OO. eapply keeps_trans; eauto.
  - intros a Ha. assert (H0 : has (m_abs m) a). { destruct S as ((_ & A & _) & _), S1 as ((_ & A1 & _) & _). destruct SF as (_ & _ & X & _). unfold has in *. rewrite A, <- X, <- A1. auto. }
    rewrite V by auto. apply shift_float; auto.
Qed.
Notation u := (unit_error M).
Lemma unit_err : u == print_err M + (1 # 100000000) + 8 * (M * tiny).
Proof. unfold unit_error, print_err, tiny. assert (E : (M / 2 ^ 37 == M * (1 # 137438953472))%Q) by reflexivity. rewrite E. destruct (Qle_bool M 999); ring. Qed.
Lemma abs_off (x y : Qc) : (Qabs x <= M)%Q -> off_by (print_err M) x y -> off_by u (rnd x) (rnd y).
Proof.
  intros B O. destruct (print_err_bound M M0 M6) as [P0 P6]. pose proof (rnd_off x M B) as R1. apply off_by_iff in O. apply Qabs_bounds in B.
  assert (BY : (Qabs y <= M + 6)%Q) by (apply Qabs_bounds; split; lra). pose proof (rnd_off y _ BY) as R2. apply off_by_iff in R1, R2. apply off_by_iff. pose proof unit_err as E. unfold tiny in *. split; lra.
Qed.
Lemma inc_off e (p p' x y : Qc) : off_by e p p' -> (0 <= e <= M + 1000)%Q -> (Qabs p <= M)%Q -> (Qabs x <= M)%Q -> off_by (print_err M) x y -> off_by (e + u) (rnd (p + x)%Qc) (rnd (p' + y)%Qc).
Proof.
  intros OP E0 BP BX O. destruct (print_err_bound M M0 M6) as [P0 P6]. apply off_by_iff in O, OP. apply Qabs_bounds in BX, BP.
  assert (B1 : (Qabs (p + x)%Qc <= 2 * M)%Q) by (apply Qabs_bounds; rewrite DrillProofs.this_add; split; lra).
  assert (B2 : (Qabs (p' + y)%Qc <= 3 * M + 1006)%Q) by (apply Qabs_bounds; rewrite DrillProofs.this_add; split; lra).
  pose proof (rnd_off _ _ B1) as R1. pose proof (rnd_off _ _ B2) as R2. apply off_by_iff in R1, R2. rewrite DrillProofs.this_add in R1, R2. apply off_by_iff. pose proof unit_err as E. unfold tiny in *. split; lra.
Qed.
Lemma spans_pos m a : sound m -> inside m -> spans M m -> has (m_abs m) a -> (Qabs (pval (m_abs m) a) <= M)%Q.
Proof.
  intros S I SP H. destruct (inside_val m a S I H) as [A B]. destruct (SP a H) as [L U]. apply Qabs_bounds in L, U. unfold Qcle in A, B. apply Qabs_bounds. split; lra.
Qed.
Lemma like_incremental e m m' : mlike e m m' -> is_incremental m' = is_incremental m.
Proof.
  intros (MM & _). specialize (MM MG_distance). unfold is_incremental. destruct (gm_get (m_mode m) MG_distance) as [g|], (gm_get (m_mode m') MG_distance) as [g'|]; try contradiction; auto. destruct MM as (-> & _). auto.
Qed.
Lemma move_like e cs cs' m m' m1 : fine m -> fine m' -> mlike e m m' -> crel cs cs' -> NoDup (map fst cs) -> NoDup (map fst cs') -> (u <= e)%Q -> (is_incremental m = true -> (e <= M + 1000)%Q) -> spans M m ->
  move_to cs m = (m1, Ok tt) -> exists m1', move_to cs' m' = (m1', Ok tt) /\ fine m1 /\ fine m1' /\ same_frame m m1 /\ same_frame m' m1' /\ mlike (if is_incremental m then e + u else e) m1 m1'.
Proof.
  intros F F' ML C N N' UE EM SP E. pose proof (like_incremental _ _ _ ML) as INC. pose proof ML as (MM & ST & AX & IG & UN & PO).
  pose proof F as (S & I & _ & FL). pose proof F' as (S' & I' & _ & FL').
  destruct (move_to_cases cs m S N) as [(G & m2 & E2 & MV)|(_ & x & E2)]; [|congruence]. rewrite E in E2. injection E2 as <-.
  pose proof (crel_good m m' cs cs' AX INC C N N' G) as G'. destruct (move_to_cases cs' m' S' N') as [(_ & m1' & E' & MV')|(X & _)]; [|contradiction].
  exists m1'. split; auto. split; [eapply fine_moved; [exact F|exact MV]|]. split; [eapply fine_moved; [exact F'|exact MV']|].
  pose proof (fine_here m F) as O. pose proof (fine_here m' F') as O'. destruct MV as (SF & S1 & U1 & V1 & I1 & R1), MV' as (SF' & S1' & U1' & V1' & I1' & R1'). split; auto. split; auto.
  pose proof SF as (M1 & T1 & A1 & G1). pose proof SF' as (M1' & T1' & A1' & G1').
  split; [rewrite M1, M1'; exact MM|]. split; [congruence|]. split; [congruence|]. split; [congruence|]. split; [congruence|].
  assert (UN0 : (0 <= u)%Q). { pose proof unit_err as UU. destruct (print_err_bound M M0 M6) as [P0 _]. unfold tiny in UU. lra. }
  intros a Ha1. assert (Ha : has (m_abs m) a). { destruct S as ((_ & A & _) & _), S1 as ((_ & B1 & _) & _). unfold has in *. rewrite A, <- A1, <- B1. auto. }
  assert (Ha' : has (m_abs m') a). { destruct S as ((_ & A & _) & _), S' as ((_ & B1 & _) & _). unfold has in *. rewrite B1, AX, <- A. auto. }
  destruct (PO a Ha) as (P1 & P2 & P3). set (e' := if is_incremental m then (e + u)%Q else e).
  assert (LE : (e <= e')%Q) by (unfold e'; destruct (is_incremental m); lra).
  assert (Z : off_by e' (pval (m_abs m1) a) (pval (m_abs m1') a)).
  { rewrite V1, V1' by auto. rewrite !shift_plain by auto. rewrite INC. pose proof (crel_at cs cs' a C N N') as CA. unfold e'. destruct (is_incremental m).
    - destruct (coord_at cs a) as [x|], (coord_at cs' a) as [y|]; try contradiction; cbn [oval].
      + destruct CA as [BX OF]. apply inc_off; auto; [split; [lra|auto]|]. apply spans_pos; auto.
      + assert (K : forall z : Qc, (z + 0)%Qc = z) by (intros; ring). rewrite !K. rewrite (FL a Ha), (FL' a Ha'). eapply off_by_le; [|exact P1]. lra.
    - destruct (coord_at cs a) as [x|], (coord_at cs' a) as [y|]; try contradiction; auto. destruct CA as [BX OF]. eapply off_by_le; [exact UE|]. apply abs_off; auto. }
  split; auto. destruct (R1 a Ha) as [-> ->]. destruct (R1' a Ha') as [-> ->]. split; [apply qmin_off|apply qmax_off]; auto; (eapply off_by_le; [exact LE|auto]).
Qed.

(** ** several moves *)
Definition wider (m m1 : machine) : Prop := forall a, has (m_abs m) a -> (pval (m_min m1) a <= pval (m_min m) a)%Qc /\ (pval (m_max m) a <= pval (m_max m1) a)%Qc.
Lemma wider_refl m : wider m m. Proof. intros a _. split; apply Qcle_refl. Qed.
Lemma has_keeps m m1 a : sound m -> sound m1 -> m_axes m1 = m_axes m -> has (m_abs m) a <-> has (m_abs m1) a.
Proof. intros ((_ & A & _) & _) ((_ & B & _) & _) E. unfold has. rewrite A, B, E. reflexivity. Qed.
Lemma wider_trans a b c : sound a -> sound b -> m_axes b = m_axes a -> wider a b -> wider b c -> wider a c.
Proof. intros S S1 A H K x Hx. destruct (H x Hx) as [H1 H2]. destruct (K x) as [K1 K2]; [apply (has_keeps a b); auto|]. split; eapply Qcle_trans; eauto. Qed.
Lemma ranged_wider m m1 : ranged m m1 -> wider m m1.
Proof. intros R a Ha. destruct (R a Ha) as [-> ->]. destruct (qmin_spec (pval (m_abs m1) a) (pval (m_min m) a)) as (_ & A & _), (qmax_spec (pval (m_abs m1) a) (pval (m_max m) a)) as (_ & B & _). auto. Qed.
Lemma spans_back m m1 : sound m -> inside m -> sound m1 -> m_axes m1 = m_axes m -> wider m m1 -> spans M m1 -> spans M m.
Proof.
  intros S I S1 A W SP a Ha. destruct (W a Ha) as [W1 W2]. destruct (inside_val m a S I Ha) as [I1 I2]. destruct (SP a) as [P1 P2]; [apply (has_keeps m m1); auto|].
  apply Qabs_bounds in P1, P2. unfold Qcle in *. split; apply Qabs_bounds; split; lra.
Qed.
Lemma like_le e f m m' : (e <= f)%Q -> mlike e m m' -> mlike f m m'.
Proof.
  intros L (A & B & C & D & E & P). split; auto. split; auto. split; auto. split; auto. split; auto. intros a Ha. destruct (P a Ha) as (P1 & P2 & P3). split; [|split]; (eapply off_by_le; [exact L|auto]).
Qed.
Definition times (n : nat) : Q := inject_Z (Z.of_nat n) * u.
Lemma unit_pos : (0 < u)%Q.
Proof. pose proof unit_err as UU. destruct (print_err_bound M M0 M6) as [P0 _]. unfold tiny in UU. lra. Qed.
Lemma times_S n : (times (S n) == u + times n)%Q.
Proof. unfold times. rewrite Nat2Z.inj_succ. unfold Z.succ. rewrite inject_Z_plus. ring. Qed.
Lemma times_plus n k : (times (n + k) == times n + times k)%Q.
Proof. unfold times. rewrite Nat2Z.inj_add, inject_Z_plus. ring. Qed.
Lemma times_pos n : (0 <= times n)%Q.
Proof. unfold times. apply Qmult_le_0_compat; [change 0%Q with (inject_Z 0); rewrite <- Zle_Qle; lia|apply Qlt_le_weak, unit_pos]. Qed.
Lemma repeat_like cs cs' : crel cs cs' -> NoDup (map fst cs) -> NoDup (map fst cs') -> forall n e m m' m1, fine m -> fine m' -> mlike e m m' -> (u <= e)%Q -> (is_incremental m = true -> (e + times n <= M + 1000)%Q) -> spans M m1 ->
  repeat_step n (move_to cs) m = (m1, Ok tt) -> exists m1', repeat_step n (move_to cs') m' = (m1', Ok tt) /\ fine m1 /\ fine m1' /\ same_frame m m1 /\ mlike (if is_incremental m then e + times n else e) m1 m1'.
Proof.
  intros C N N'. induction n as [|n IH]; intros e m m' m1 F F' ML UE EM SP E; cbn [repeat_step] in *.
  - injection E as <-. exists m'. split; auto. split; auto. split; auto. split; [apply same_frame_refl|]. eapply like_le; [|exact ML]. destruct (is_incremental m); [|apply Qle_refl]. pose proof (times_pos 0). lra.
  - unfold then_step in *. destruct (move_to cs m) as [x [[]|ex]] eqn:E1; [|discriminate E]. pose proof F as (S & I & _).
    destruct (move_to_cases cs m S N) as [(G & m2 & E2 & MV)|(_ & y & E2)]; [|congruence]. rewrite E1 in E2. injection E2 as <-. pose proof MV as (SF & S1 & _ & _ & I1 & RG).
    destruct (repeat_spec n cs x S1 N (frame_coords _ _ _ SF G)) as (m3 & E3 & SF3 & S3 & _ & _ & _ & RG3). rewrite E in E3. injection E3 as <-. specialize (RG3 MO I1).
    assert (SPx : spans M x). { eapply spans_back; [exact S1|exact I1|exact S3|apply SF3|apply ranged_wider; exact RG3|exact SP]. }
    assert (SPm : spans M m). { eapply spans_back; [exact S|exact I|exact S1|apply SF|apply ranged_wider; exact RG|exact SPx]. }
    pose proof (times_S n) as TS. pose proof (times_pos n) as TP. pose proof unit_pos as UP.
    destruct (move_like e cs cs' m m' x F F' ML C N N' UE) as (x' & Ex & Fx & Fx' & SFx & SFx' & MLx); auto. { intros Z. specialize (EM Z). lra. }
    rewrite Ex. assert (INC : is_incremental x = is_incremental m). { unfold is_incremental. destruct SF as (-> & _). auto. }
    destruct (IH _ x x' m1 Fx Fx' MLx) as (m1' & E1' & F1 & F1' & SF1 & ML1); auto.
    + destruct (is_incremental m); lra.
    + rewrite INC. intros Z. rewrite Z. specialize (EM Z). lra.
    + exists m1'. split; auto. split; auto. split; auto. split; [eapply same_frame_trans; eauto|]. rewrite INC in ML1. eapply like_le; [|exact ML1]. destruct (is_incremental m); lra.
Qed.

(** ** one gcode *)
Lemma modal_like g g' : glike g g' -> legal g -> legal g' -> glike (modal_of g) (modal_of g').
Proof.
  intros (A & B & P) [_ N] [_ N']. split; auto. split; auto. intros l. cbn [modal_of gparams]. rewrite A.
  rewrite !(dget_filter_key _ letter_eqb_eq (accepts_modal (gcls g))). destruct (accepts_modal (gcls g) l); auto. apply P.
Qed.
Definition mode_like (md md' : mode) : Prop := forall mg, match gm_get md mg, gm_get md' mg with None, None => True | Some g, Some g' => glike g g' | _, _ => False end.
Lemma set_effect_like md md' g g' : mode_like md md' -> glike g g' -> legal g -> legal g' -> mode_like (set_effect md g) (set_effect md' g').
Proof.
  intros S G L L'. unfold set_effect. rewrite (proj1 G). destruct (modal_group (gcls g)) as [mg|]; auto. intros mg'. rewrite !gm_get_set. destruct (mgroup_eqb mg mg'); [apply modal_like; auto|apply S].
Qed.
Lemma after_mode_like e m m' md md' : mlike e m m' -> mode_like md md' -> mlike e (after_mode m md) (after_mode m' md').
Proof.
  intros (S & A & B & C & D & P) Q. unfold after_mode. pose proof (Q MG_coordinate_system) as K. destruct (gm_get md MG_coordinate_system) as [g|], (gm_get md' MG_coordinate_system) as [g'|]; try contradiction.
  - rewrite (proj1 K). destruct (coord_system_id (gcls g)).
    + split; [exact Q|]. split; [cbn [with_state with_mode m_state]; rewrite A; reflexivity|]. repeat (split; [assumption|]). exact P.
    + split; [exact Q|]. repeat (split; [assumption|]). exact P.
  - split; [exact Q|]. repeat (split; [assumption|]). exact P.
Qed.
Lemma set_for_like e m m' g g' : mlike e m m' -> glike g g' -> legal g -> legal g' -> mlike e (set_for m g) (set_for m' g').
Proof. intros ML G L L'. unfold set_for. apply after_mode_like; auto. apply set_effect_like; auto. exact (proj1 ML). Qed.
Lemma set_for_keeps m g : keeps m (set_for m g).
Proof. unfold set_for, after_mode. destruct (gm_get _ MG_coordinate_system) as [x|]; [destruct (coord_system_id (gcls x))|]; repeat split. Qed.
Lemma fine_set m g : fine m -> gcode_wf g -> fine (set_for m g).
Proof.
  intros (S & I & O & F) W. split; [apply set_for_sound; auto|]. split; [apply set_for_range; auto|]. split; [intros k K; apply O; eapply keeps_trans; [apply set_for_keeps|exact K]|].
  destruct (set_for_pos m g) as (P & _). unfold ScriptsProofs19.floating. rewrite P. exact F.
Qed.
Lemma fine_clear m : fine m -> fine (with_mode m (gm_set (m_mode m) MG_motion None)).
Proof. intros (S & I & O & F). split; [apply clear_sound; auto|]. split; [exact I|]. split; [|exact F]. intros k K. apply O. exact K. Qed.

Lemma loops_count g k v : gcode_wf g -> loops g k -> gcode_getattr g LL = Ok v -> Z.to_nat (match v with Some (VInt z) => if (z <=? 0)%Z then 1 else z | _ => 1 end) = k.
Proof.
  intros ((_ & N) & _) L E. unfold gcode_getattr in E. destruct (accepts (gcls g) LL); [|discriminate E]. injection E as <-. unfold pget. destruct L as [(w & z & I & V & ->)|[NO ->]].
  - apply (in_dget _ _ _ letter_eqb_eq) in I; [|exact N]. rewrite I. cbn [option_map]. rewrite V. f_equal. destruct (z <=? 0)%Z eqn:Z0; [apply Z.leb_le in Z0|apply Z.leb_gt in Z0]; lia.
  - destruct (dget letter_eqb (gparams g) LL) as [w|] eqn:D; [|reflexivity]. apply (dget_in _ _ _ letter_eqb_eq) in D. destruct (NO w D).
Qed.
Lemma canned_like e g g' m m' m1 k : fine m -> fine m' -> mlike e m m' -> glike g g' -> gcode_wf g -> gcode_wf g' -> (u <= e)%Q -> (is_incremental m = true -> loops g k /\ (e + times k <= M + 1000)%Q) -> spans M m1 ->
  canned_process g m = (m1, Ok tt) -> exists m1', canned_process g' m' = (m1', Ok tt) /\ fine m1 /\ fine m1' /\ same_frame m m1 /\ mlike (if is_incremental m then e + times k else e) m1 m1'.
Proof.
  intros F F' ML G W W' UE EM SP E. unfold canned_process in *. pose proof ML as (MM & _ & AX & _).
  destruct (gcode_coords_spec m g W) as [(_ & N & _) _]. destruct (gcode_coords_spec m' g' W') as [(_ & N' & _) _]. pose proof (coords_rel m m' g g' AX W W' G) as C.
  revert C N N' E. generalize (gcode_coords m g) (gcode_coords m' g'). intros cs cs' C N N' E.
  rewrite (getattr_rel g g' LL W G) by discriminate. pose proof (MM MG_canned_cycles_return) as C1. pose proof (MM MG_plane_selection) as C2.
  replace (match gm_get (m_mode m') MG_canned_cycles_return with Some r => subclass (gcls r) GCodeCannedCycleReturnToR | None => false end)
    with (match gm_get (m_mode m) MG_canned_cycles_return with Some r => subclass (gcls r) GCodeCannedCycleReturnToR | None => false end)
    by (destruct (gm_get (m_mode m) MG_canned_cycles_return), (gm_get (m_mode m') MG_canned_cycles_return); try contradiction; auto; rewrite (proj1 C1); auto).
  destruct (gm_get (m_mode m) MG_plane_selection) as [pl|]; [|discriminate E]. destruct (gm_get (m_mode m') MG_plane_selection) as [pl'|]; [|contradiction]. rewrite (proj1 C2).
  destruct (normal_axis (gcls pl)) as [na|]; [|discriminate E].
  assert (GO : forall ds ds' l, crel ds ds' -> NoDup (map fst ds) -> NoDup (map fst ds') -> gcode_getattr g LL = Ok l ->
    repeat_step (Z.to_nat match l with Some (VInt z) => if (z <=? 0)%Z then 1 else z | _ => 1 end) (move_to ds) m = (m1, Ok tt) ->
    exists m1', repeat_step (Z.to_nat match l with Some (VInt z) => if (z <=? 0)%Z then 1 else z | _ => 1 end) (move_to ds') m' = (m1', Ok tt) /\ fine m1 /\ fine m1' /\ same_frame m m1 /\ mlike (if is_incremental m then e + times k else e) m1 m1').
  { intros ds ds' l D ND ND' EL ER. destruct (is_incremental m) eqn:INC.
    - destruct (EM eq_refl) as [LO LE]. rewrite (loops_count g k l W LO EL) in *. destruct (repeat_like ds ds' D ND ND' k e m m' m1 F F' ML UE) as (m1' & X); auto. rewrite INC in X. eauto.
    - assert (NI : forall q : Q, is_incremental m = true -> (q <= M + 1000)%Q) by (intros q; rewrite INC; discriminate). destruct (repeat_like ds ds' D ND ND' _ e m m' m1 F F' ML UE (NI _) SP ER) as (m1' & X). rewrite INC in X. eauto. }
  destruct (match gm_get (m_mode m) MG_canned_cycles_return with Some r => _ | None => _ end).
  - assert (R : forall r, gcode_getattr g LR = Ok r -> exists r', gcode_getattr g' LR = Ok r' /\
        match match r with Some v => num_of_value v | None => None end, match r' with Some v => num_of_value v | None => None end with None, None => True | Some x, Some y => (Qabs (this x) <= M)%Q /\ off_by (print_err M) x y | _, _ => False end).
    { intros r ER. unfold gcode_getattr in *. rewrite (proj1 G). destruct (accepts (gcls g) LR); [|discriminate ER]. injection ER as <-. eexists. split; [reflexivity|]. unfold pget. destruct G as (_ & _ & P). specialize (P LR).
      destruct (dget letter_eqb (gparams g) LR) as [w|] eqn:D, (dget letter_eqb (gparams g') LR) as [w'|]; try contradiction; cbn [option_map]; auto.
      destruct (param_wf _ _ _ W D) as [WW WL]. destruct (wrel_value w w' WW P) as (x & y & -> & -> & B & O). { rewrite WL. left. auto. } cbn [num_of_value]. auto. }
    destruct (gcode_getattr g LR) as [r|]; [|discriminate E]. destruct (R r eq_refl) as (r' & -> & RR). destruct na as [l|]; [|destruct (gcode_getattr g LL); discriminate E]. destruct (axis_of_letter l) as [a|]; [|discriminate E].
    destruct (gcode_getattr g LL) as [v|] eqn:EL; [|discriminate E]. eapply GO; [| | |reflexivity|exact E]; [apply crel_set; auto| |]; apply (dset_nodup _ _ _ axis_eqb_eq); auto.
  - destruct (gcode_getattr g LL) as [v|] eqn:EL; [|discriminate E]. eapply GO; [| | |reflexivity|exact E]; destruct na as [l|]; auto; destruct (axis_of_letter l) as [a|]; auto; [apply crel_pop; auto|apply dpop_nodup; auto|apply dpop_nodup; auto].
Qed.
Lemma process_like e g g' m m' m1 k : fine m -> fine m' -> mlike e m m' -> glike g g' -> gcode_wf g -> gcode_wf g' -> (u <= e)%Q -> stride m1 g k -> (e + times k <= M + 1000)%Q -> spans M m1 ->
  gcode_process g m = (m1, Ok tt) -> exists m1', gcode_process g' m' = (m1', Ok tt) /\ fine m1 /\ fine m1' /\ mlike (e + times k) m1 m1'.
Proof.
  intros F F' ML G W W' UE ST EM SP E. pose proof F as (S & I & _). pose proof F' as (S' & I' & _). pose proof (times_pos k) as TP.
  destruct (process_ranged g m m1 MO S I W E) as (_ & S1 & _).
  rewrite process_own in * by (auto; first [apply W|apply W']). pose proof (set_for_like e m m' g g' ML G (proj1 W) (proj1 W')) as M2. pose proof (fine_set m g F W) as F2. pose proof (fine_set m' g' F' W') as F2'.
  assert (KM := kind_move g). assert (KC := kind_canned g). revert E. generalize (set_for m g) (set_for m' g') M2 F2 F2'. clear m m' F F' ML S I S' I' M2 F2 F2'. intros m m' ML F F' E.
  unfold gcode_process_own in *. rewrite (proj1 G). destruct (process_kind (gcls g)).
  - injection E as <-. exists m'. split; auto. split; auto. split; auto. eapply like_le; [|exact ML]. lra.
  - destruct KM as [KM _]. specialize (KM eq_refl). assert (NC : ~ is_canned g) by (intros X; apply KC in X; discriminate X).
    pose proof ML as (MM & _ & AX & _). destruct (gcode_coords_spec m g W) as [(_ & N & _) _]. destruct (gcode_coords_spec m' g' W') as [(_ & N' & _) _]. pose proof (coords_rel m m' g g' AX W W' G) as C.
    pose proof F as (S & I & _). destruct (move_to_cases (gcode_coords m g) m S N) as [(GC & m2 & E2 & MV)|(_ & y & E2)]; [|congruence]. rewrite E in E2. injection E2 as <-. destruct MV as (SF & _ & _ & _ & _ & RG).
    assert (INC : is_incremental m1 = is_incremental m). { unfold is_incremental. destruct SF as (-> & _). auto. }
    assert (K1 : is_incremental m = true -> k = 1).
    { intros Z. rewrite <- INC in Z. destruct ST as [(_ & _ & X)|[(_ & X & _)|([X|(X & _)] & _)]]; auto; try contradiction. apply absolute_iff in X. congruence. }
    destruct (move_like e _ _ m m' m1 F F' ML C N N' UE) as (m1' & E1 & F1 & F1' & _ & _ & ML1); auto.
    + intros _. lra.
    + eapply spans_back; [exact S|exact I|exact S1|apply SF|apply ranged_wider; exact RG|exact SP].
    + exists m1'. split; auto. split; auto. split; auto. eapply like_le; [|exact ML1]. destruct (is_incremental m) eqn:Z; [|lra]. rewrite (K1 eq_refl). unfold times. change (inject_Z (Z.of_nat 1)) with 1%Q. lra.
  - destruct KC as [KC _]. specialize (KC eq_refl). assert (NC : ~ is_move g) by (intros X; apply KM in X; discriminate X).
    pose proof F as (S & I & _). assert (SF : same_frame m m1).
    { destruct (canned_cases g m S W) as [(x & X)|(cs & n & P & N & GC & m2 & X & R & SF & _)]; rewrite E in X; [discriminate X|]. injection X as <-. exact SF. }
    assert (INC : is_incremental m1 = is_incremental m). { unfold is_incremental. destruct SF as (-> & _). auto. }
    assert (K1 : is_incremental m = true -> loops g k /\ (e + times k <= M + 1000)%Q).
    { intros Z. split; auto. rewrite <- INC in Z. destruct ST as [(_ & X & _)|[(_ & _ & X)|([X|(_ & X)] & _)]]; auto; try contradiction. apply absolute_iff in X. congruence. }
    destruct (canned_like e g g' m m' m1 k F F' ML G W W' UE K1 SP E) as (m1' & E1 & F1 & F1' & _ & ML1). exists m1'. split; auto. split; auto. split; auto. eapply like_le; [|exact ML1]. destruct (is_incremental m); lra.
  - unfold atomic_step in *. injection E as <-. eexists. split; [reflexivity|]. split; [apply fine_clear; auto|]. split; [apply fine_clear; auto|]. apply (like_le e); [lra|]. destruct ML as (A & B). split; [|exact B].
    intros mg. cbn [with_mode m_mode]. rewrite !gm_get_set. destruct (mgroup_eqb MG_motion mg); auto. apply A.
Qed.

(** ** the words that complete the motion mode *)
Definition like_opt (o o' : option gcode) : Prop := match o, o' with None, None => True | Some g, Some g' => glike g g' | _, _ => False end.
Lemma find_like ps ps' l : Forall2 wrel ps ps' -> match find (fun w => letter_eqb l (wletter w)) ps, find (fun w => letter_eqb l (wletter w)) ps' with None, None => True | Some w, Some w' => wrel w w' | _, _ => False end.
Proof.
  induction 1 as [|w w' ps ps' R F IH]; cbn [find]; auto. pose proof R as [[L _] _]. rewrite L. destruct (letter_eqb l (wletter w)); auto.
Qed.
Lemma updated_get mo ps l : legal mo -> dget letter_eqb (filter (fun kv => fit (gcls mo) (snd kv)) (updated mo ps)) l =
  if accepts (gcls mo) l then match find (fun w => letter_eqb l (wletter w)) (rev ps) with Some w => Some w | None => dget letter_eqb (gparams mo) l end else None.
Proof.
  intros L. rewrite (filter_ext_in (fun kv => fit (gcls mo) (snd kv)) (fun kv => accepts (gcls mo) (fst kv))).
  - rewrite (dget_filter_key _ letter_eqb_eq (accepts (gcls mo))). unfold updated. rewrite (dget_dupdate _ _ _ letter_eqb_eq), dget_words. reflexivity.
  - intros kv I. apply updated_in in I as [-> _]; auto.
Qed.
Lemma modal_gcode_like e m m' ps ps' og : fine m -> fine m' -> mlike e m m' -> bare ps -> bare ps' -> Forall2 wrel ps ps' -> machine_modal_gcode m ps = Ok og -> exists og', machine_modal_gcode m' ps' = Ok og' /\ like_opt og og'.
Proof.
  intros (S & _) (S' & _) (MM & _ & _ & IG & _) B B' F E. specialize (MM MG_motion). destruct S as (_ & _ & _ & _ & _ & _ & T), S' as (_ & _ & _ & _ & _ & _ & T').
  destruct F as [|w w' ps ps' R F]; [injection E as <-; exists None; split; [reflexivity|exact Logic.I]|]. remember (w :: ps) as qs. remember (w' :: ps') as qs'. assert (FF : Forall2 wrel qs qs') by (subst; constructor; auto).
  assert (NE : qs <> []) by (subst; discriminate). assert (NE' : qs' <> []) by (subst; discriminate).
  destruct (gm_get (m_mode m) MG_motion) as [mo|] eqn:Em, (gm_get (m_mode m') MG_motion) as [mo'|] eqn:Em'; try contradiction.
  - destruct (T _ _ Em) as (L & P & _). destruct (T' _ _ Em') as (L' & P' & _). rewrite (modal_gcode_spec m mo qs Em L P B NE) in E. rewrite (modal_gcode_spec m' mo' qs' Em' L' P' B' NE'). destruct MM as (C & WW & PP). rewrite IG.
    assert (U : existsb (unfit (gcls mo')) qs' = existsb (unfit (gcls mo)) qs).
    { rewrite C. clear -FF. induction FF as [|x x' xs xs' X FX IH]; cbn [existsb]; auto. rewrite IH. unfold unfit. destruct X as [[-> _] _]. auto. }
    rewrite U. destruct (existsb (unfit (gcls mo)) qs && negb (m_ignore m)); [discriminate E|]. injection E as <-. eexists. split; [reflexivity|]. split; [exact C|]. split; [exact WW|]. intros l. cbn [gparams].
    rewrite !updated_get by auto. rewrite C. destruct (accepts (gcls mo) l); auto. assert (FR : Forall2 wrel (rev qs) (rev qs')). { clear -FF. induction FF; cbn [rev]; [constructor|]. apply Forall2_app; auto. }
    pose proof (find_like _ _ l FR) as FL. destruct (find _ (rev qs)), (find _ (rev qs')); try contradiction; auto. apply PP.
  - rewrite (modal_gcode_none m qs Em NE) in E. rewrite (modal_gcode_none m' qs' Em' NE'), IG. destruct (m_ignore m); [|discriminate E]. injection E as <-. exists None. split; auto.
Qed.
(** ** a list of gcodes, a block *)
Lemma insert_like g h : glike g h -> forall gs hs, Forall2 glike gs hs -> Forall2 glike (insert gorder g gs) (insert gorder h hs).
Proof.
  intros G gs hs. induction 1 as [|a b gs hs A F IH]; cbn [insert]; [constructor; auto|]. unfold gorder. rewrite (proj1 G), (proj1 A). fold (gorder g) (gorder a). destruct (gorder g <=? gorder a)%Z; constructor; auto.
Qed.
Lemma sort_like gs hs : Forall2 glike gs hs -> Forall2 glike (sort_gcodes gs) (sort_gcodes hs).
Proof. unfold sort_gcodes. induction 1; cbn [sort]; auto. apply insert_like; auto. Qed.
Lemma steps_wider gs : forall m m1, sound m -> inside m -> Forall gcode_wf gs -> steps (map gcode_process gs) m = (m1, Ok tt) -> wider m m1 /\ sound m1 /\ inside m1 /\ m_axes m1 = m_axes m.
Proof.
  induction gs as [|g gs IH]; intros m m1 S I W E; cbn [map steps] in E; [injection E as <-; split; [apply wider_refl|auto]|]. inversion W as [|? ? W1 W2]; subst. unfold then_step in E. destruct (gcode_process g m) as [x [[]|ex]] eqn:Ex; [|discriminate E].
  destruct (process_ranged g m x MO S I W1 Ex) as (R & Sx & Ix & Ax & _). destruct (IH x m1 Sx Ix W2 E) as (A & B & C & D). split; [|split; auto; split; auto; congruence]. eapply wider_trans; [exact S|exact Sx|exact Ax|apply ranged_wider; exact R|exact A].
Qed.
Lemma steps_like gs gs' : Forall2 glike gs gs' -> Forall gcode_wf gs -> Forall gcode_wf gs' -> forall n e m m' m1, fine m -> fine m' -> mlike e m m' -> (u <= e)%Q -> strides m gs n -> (e + times n <= M + 1000)%Q -> spans M m1 ->
  steps (map gcode_process gs) m = (m1, Ok tt) -> exists m1', steps (map gcode_process gs') m' = (m1', Ok tt) /\ fine m1 /\ fine m1' /\ mlike (e + times n) m1 m1'.
Proof.
  induction 1 as [|g g' gs gs' G GS IH]; intros W W' n e m m' m1 F F' ML UE ST EM SP E; cbn [map steps] in *.
  - injection E as <-. inversion ST; subst. exists m'. split; auto. split; auto. split; auto. eapply like_le; [|exact ML]. pose proof (times_pos 0). lra.
  - inversion W as [|? ? W1 W2]; subst. inversion W' as [|? ? W1' W2']; subst. inversion ST as [|? ? ? x k j Ex SK SJ]; subst. unfold then_step in *. rewrite Ex in E. pose proof F as (S & I & _).
    destruct (process_ranged g m x MO S I W1 Ex) as (R & Sx & Ix & Ax & _). destruct (steps_wider gs x m1 Sx Ix W2 E) as (WD & S1 & I1 & A1).
    assert (SPx : spans M x) by (eapply spans_back; [exact Sx|exact Ix|exact S1|exact A1|exact WD|exact SP]). pose proof (times_plus k j) as TP. pose proof (times_pos k). pose proof (times_pos j).
    destruct (process_like e g g' m m' x k F F' ML G W1 W1' UE SK ltac:(lra) SPx Ex) as (x' & Ex' & Fx & Fx' & MLx). rewrite Ex'.
    destruct (IH W2 W2' j (e + times k)%Q x x' m1 Fx Fx' MLx ltac:(lra) SJ ltac:(lra) SP E) as (m1' & E1' & F1 & F1' & ML1). exists m1'. split; auto. split; auto. split; auto. eapply like_le; [|exact ML1]. lra.
Qed.
Lemma block_like b b' e m m' m1 gs n : Forall2 glike (bgcodes b) (bgcodes b') -> Forall2 wrel (bmodal b) (bmodal b') -> Forall gcode_wf (bgcodes b) -> Forall gcode_wf (bgcodes b') -> Forall word_wf (bmodal b) -> Forall word_wf (bmodal b') -> bare (bmodal b) -> bare (bmodal b') ->
  fine m -> fine m' -> mlike e m m' -> (u <= e)%Q -> block_modal_gcodes m b = Ok gs -> strides m gs n -> (e + times n <= M + 1000)%Q -> spans M m1 ->
  process_block b m = (m1, Ok tt) -> exists m1', process_block b' m' = (m1', Ok tt) /\ fine m1 /\ fine m1' /\ mlike (e + times n) m1 m1'.
Proof.
  intros G P W W' V V' B B' F F' ML UE EG ST EM SP E. unfold process_block, process_gcodes, block_modal_gcodes in *. destruct (machine_modal_gcode m (bmodal b)) as [og|] eqn:EO; cbn [bind] in EG; [|discriminate EG]. injection EG as <-.
  destruct (modal_gcode_like e m m' _ _ og F F' ML B B' P EO) as (og' & EO' & LO). rewrite EO'.
  assert (X : Forall2 glike (match og with Some g => [g] | None => [] end) (match og' with Some g => [g] | None => [] end)) by (destruct og, og'; try contradiction; [constructor; [exact LO|constructor]|constructor]).
  assert (Y : Forall gcode_wf (match og with Some g => [g] | None => [] end)) by (destruct og as [g|]; [constructor; [|constructor]; eapply modal_gcode_wf; [apply F|exact V|exact EO]|constructor]).
  assert (Y' : Forall gcode_wf (match og' with Some g => [g] | None => [] end)) by (destruct og' as [g|]; [constructor; [|constructor]; eapply modal_gcode_wf; [apply F'|exact V'|exact EO']|constructor]).
  refine (steps_like _ _ (sort_like _ _ (Forall2_app G X)) _ _ n e m m' m1 F F' ML UE ST EM SP E); (apply sort_wf, Forall_app; auto).
Qed.
End Bound.
End WithArith.
