(** Lemmas for C95: the circle of an arc in the planes ZX and YZ is that of the XY plane with the axes renamed. *)
From Coq Require Import List Bool ZArith QArith Qcanon Qabs Qreals Reals Lia Lra.
From Verif Require Import Base Num Words GTable GCode Position Machine Transform BaseFacts NumFacts WordOrder PrintSpec PrintProofs PosProofs ArithSpec Float64 DrillProofs GCodeSpec PropsGCode MachSpec MachProofs CannedProofs Arc ArcSpec ArcProofs2 ArcProofs3.
From Verif Require Import FloatArc FloatArcSpec FloatArcSpec2 FloatArcSpec3 FloatArcProofs FloatArcProofs3 FloatArcProofs5 FloatArcProofs6 FloatArcProofs7 FloatArcProofs8.
Import ListNotations.
Open Scope R_scope.

Notation XY := GCodeSelectXYPlane.
Notation ZX := GCodeSelectZXPlane.
Notation YZ := GCodeSelectYZPlane.
Notation up := (FV zero zero one).
(** a vector, seen with the first axis of the plane as X, the second as Y, the height as Z *)
Definition flat (c : gclass) (v : fvec) : fvec := match c with ZX => FV (fz v) (fx v) (fy v) | YZ => FV (fy v) (fz v) (fx v) | _ => v end.
Definition flatR (c : gclass) (v : vec) : vec := match c with ZX => V3 (vz v) (vx v) (vy v) | YZ => V3 (vy v) (vz v) (vx v) | _ => v end.
Definition fl (c : gclass) (l : letter) : letter :=
  match c with
  | ZX => match l with LZ => LX | LX => LY | LY => LZ | LK => LI | LI => LJ | LJ => LK | l => l end
  | YZ => match l with LY => LX | LZ => LY | LX => LZ | LJ => LI | LK => LJ | LI => LK | l => l end
  | _ => l
  end.
Definition flat_gcode (c : gclass) (g : gcode) : gcode :=
  MkGCode (gcls g) (gword g) (map (fun kv => (fl c (fst kv), Word (fl c (fst kv)) (wvalue (snd kv)))) (gparams g)) (gwhite g).

Lemma fl_inj c a b : fl c a = fl c b -> a = b.
Proof. destruct c; try (intros H; exact H); destruct a, b; vm_compute; congruence. Qed.
Lemma fl_eqb c a b : letter_eqb (fl c a) (fl c b) = letter_eqb a b.
Proof. destruct (letter_eqb a b) eqn:E; [apply letter_eqb_eq in E; subst; apply letter_eqb_eq; reflexivity|]. destruct (letter_eqb (fl c a) (fl c b)) eqn:F; auto. apply letter_eqb_eq, fl_inj in F. subst. assert (letter_eqb b b = true) by (apply letter_eqb_eq; auto). congruence. Qed.
Lemma pget_flat c g l : pget (gparams (flat_gcode c g)) (fl c l) = option_map (fun w => Word (fl c l) (wvalue w)) (pget (gparams g) l).
Proof.
  cbn [flat_gcode gparams]. generalize (gparams g). intros d. unfold pget. induction d as [|[k w] d IH]; [reflexivity|]. cbn [map dget fst snd]. rewrite fl_eqb. destruct (letter_eqb l k) eqn:E; [|exact IH]. apply letter_eqb_eq in E. subst. reflexivity.
Qed.
Lemma param_flat c g l : param_value (flat_gcode c g) (fl c l) = param_value g l.
Proof. unfold param_value. rewrite pget_flat. destruct (pget (gparams g) l); reflexivity. Qed.
Lemma pin_flat c g l : Arc.pin (gparams (flat_gcode c g)) (fl c l) = Arc.pin (gparams g) l.
Proof. unfold Arc.pin. rewrite pget_flat. destruct (pget (gparams g) l); reflexivity. Qed.
Lemma fl_R c : fl c LR = LR. Proof. destruct c; reflexivity. Qed.

Definition turned_plane (c : gclass) : Prop := c = ZX \/ c = YZ.
Lemma check_flat c g : turned_plane c -> check_params (flat_gcode c g) = check_params g.
Proof.
  intros T. unfold check_params. cbn [existsb]. pose proof (pin_flat c g) as P. pose proof (param_flat c g LR) as V. rewrite fl_R in V. rewrite V.
  destruct T as [-> | ->].
  - rewrite (P LZ : Arc.pin _ LX = _), (P LX : Arc.pin _ LY = _), (P LY : Arc.pin _ LZ = _), (P LK : Arc.pin _ LI = _), (P LI : Arc.pin _ LJ = _), (P LJ : Arc.pin _ LK = _), (P LR : Arc.pin _ LR = _).
    destruct (Arc.pin (gparams g) LX), (Arc.pin (gparams g) LY), (Arc.pin (gparams g) LZ), (Arc.pin (gparams g) LI), (Arc.pin (gparams g) LJ), (Arc.pin (gparams g) LK); reflexivity.
  - rewrite (P LY : Arc.pin _ LX = _), (P LZ : Arc.pin _ LY = _), (P LX : Arc.pin _ LZ = _), (P LJ : Arc.pin _ LI = _), (P LK : Arc.pin _ LJ = _), (P LI : Arc.pin _ LK = _), (P LR : Arc.pin _ LR = _).
    destruct (Arc.pin (gparams g) LX), (Arc.pin (gparams g) LY), (Arc.pin (gparams g) LZ), (Arc.pin (gparams g) LI), (Arc.pin (gparams g) LJ), (Arc.pin (gparams g) LK); reflexivity.
Qed.

(** the renamed words *)
Lemma takes_flat c k l : derives k GCodeArcMove -> takes k l -> takes k (fl c l).
Proof.
  intros D. apply subclass_derives in D. unfold takes. destruct k; try discriminate D; clear D; destruct c; try (intros H; exact H); intros H; vm_compute in H; repeat (destruct H as [<-|H]; [vm_compute; tauto|]); destruct H.
Qed.
Lemma class_flat c l : letter_class (fl c l) = letter_class l.
Proof. destruct c; try reflexivity; destruct l; reflexivity. Qed.
Lemma flat_wf {ar : Arith} c g : is_arc g -> gcode_wf g -> gcode_wf (flat_gcode c g).
Proof.
  intros A ((LE & ND) & PR & WW & WF). split; [split|split; [exact PR|split; [exact WW|]]].
  - cbn [flat_gcode gparams gcls]. apply Forall_map. eapply Forall_impl; [|exact LE]. intros [k w] [E T]. cbn [fst snd wletter] in *. split; auto. apply takes_flat; auto.
  - cbn [flat_gcode gparams]. rewrite map_map. cbn [fst]. rewrite <- (map_map fst (fl c)). apply FinFun.Injective_map_NoDup; auto. intros x y. apply fl_inj.
  - cbn [flat_gcode gparams]. apply Forall_map. rewrite Forall_forall in *. intros [k w] J. specialize (LE _ J). specialize (WF _ J). cbn [fst snd] in *. destruct LE as [-> _]. unfold word_wf in *. cbn [wletter wvalue]. rewrite class_flat. exact WF.
Qed.
Lemma in_flat c g l w : legal g -> In (l, w) (gparams g) -> In (fl c l, Word (fl c l) (wvalue w)) (gparams (flat_gcode c g)).
Proof. intros _ J. cbn [flat_gcode gparams]. apply in_map_iff. exists (l, w). auto. Qed.
Lemma in_flat_inv c g l w : In (fl c l, w) (gparams (flat_gcode c g)) -> exists w0, In (l, w0) (gparams g) /\ wvalue w = wvalue w0.
Proof. cbn [flat_gcode gparams]. intros J. apply in_map_iff in J as ([k w0] & E & J). cbn [fst snd] in E. injection E as E1 E2. apply fl_inj in E1. subst. exists w0. auto. Qed.
Lemma reads_flat c g l x : ArcSpec.reads (flat_gcode c g) (fl c l) x <-> ArcSpec.reads g l x.
Proof.
  split; intros (w & z & J & V & ->).
  - apply in_flat_inv in J as (w0 & J & E). exists w0, z. rewrite <- E. auto.
  - exists (Word (fl c l) (wvalue w)), z. split; auto. cbn [flat_gcode gparams]. apply in_map_iff. exists (l, w). auto.
Qed.
Lemma lacks_flat c g l : lacks (flat_gcode c g) (fl c l) <-> lacks g l.
Proof.
  split; intros N w J.
  - apply (N (Word (fl c l) (wvalue w))). cbn [flat_gcode gparams]. apply in_map_iff. exists (l, w). auto.
  - apply in_flat_inv in J as (w0 & J & _). exact (N w0 J).
Qed.
Lemma floats_flat {ar : Arith} c g : (forall l w x, In (l, w) (gparams g) -> wvalue w = VFloat x -> float x) -> forall l w x, In (l, w) (gparams (flat_gcode c g)) -> wvalue w = VFloat x -> float x.
Proof. intros F l w x J V. cbn [flat_gcode gparams] in J. apply in_map_iff in J as ([k w0] & E & J). injection E as <- <-. exact (F _ _ _ J V). Qed.
Lemma apart_flat c p q : turned_plane c -> apart XY (flatR c p) (flatR c q) = apart c p q.
Proof. intros [-> | ->]; reflexivity. Qed.
Lemma left_flat c p q o : turned_plane c -> leftness XY (flatR c p) (flatR c q) (flatR c o) = leftness c p q o.
Proof. intros [-> | ->]; reflexivity. Qed.
Lemma given_flat c g ai p o : turned_plane c -> given_center ai (flat_gcode c g) (flatR c p) (flatR c o) <-> given_center ai g p o.
Proof.
  assert (X : forall l f l' f', fl c l = l' -> f' (flatR c o) = f o -> f' (flatR c p) = f p ->
    ((forall x, ArcSpec.reads (flat_gcode c g) l' x -> f' (flatR c o) = if ai then f' (flatR c p) + x else x) /\ (lacks (flat_gcode c g) l' -> f' (flatR c o) = if ai then f' (flatR c p) else 0)) <->
    ((forall x, ArcSpec.reads g l x -> f o = if ai then f p + x else x) /\ (lacks g l -> f o = if ai then f p else 0))).
  { intros l f l' f' <- -> ->. split; intros [A B]; (split; [intros x H; apply A; apply (reads_flat c g l x); exact H|intros H; apply B; apply (lacks_flat c g l); exact H]). }
  intros [-> | ->]; (split; intros G l f [E|[E|[E|[]]]]; injection E as <- <-).
  - apply (X LI vx LJ vy eq_refl eq_refl eq_refl), G. cbn; auto.
  - apply (X LJ vy LK vz eq_refl eq_refl eq_refl), G. cbn; auto.
  - apply (X LK vz LI vx eq_refl eq_refl eq_refl), G. cbn; auto.
  - apply (X LK vz LI vx eq_refl eq_refl eq_refl), G. cbn; auto.
  - apply (X LI vx LJ vy eq_refl eq_refl eq_refl), G. cbn; auto.
  - apply (X LJ vy LK vz eq_refl eq_refl eq_refl), G. cbn; auto.
  - apply (X LI vx LK vz eq_refl eq_refl eq_refl), G. cbn; auto.
  - apply (X LJ vy LI vx eq_refl eq_refl eq_refl), G. cbn; auto.
  - apply (X LK vz LJ vy eq_refl eq_refl eq_refl), G. cbn; auto.
  - apply (X LJ vy LI vx eq_refl eq_refl eq_refl), G. cbn; auto.
  - apply (X LK vz LJ vy eq_refl eq_refl eq_refl), G. cbn; auto.
  - apply (X LI vx LK vz eq_refl eq_refl eq_refl), G. cbn; auto.
Qed.
(** every point is the view of some point *)
Lemma flat_onto c v : turned_plane c -> exists v', v = flatR c v'.
Proof. destruct v as [x y z]. intros [-> | ->]; [exists (V3 y z x)|exists (V3 z x y)]; reflexivity. Qed.
Lemma circle_flat c g ai p q o r d d2 : turned_plane c -> nearly_circle (flat_gcode c g) XY ai (flatR c p) (flatR c q) (flatR c o) r d d2 -> nearly_circle g c ai p q o r d d2.
Proof.
  intros T. unfold nearly_circle. rewrite !(apart_flat c) by auto. rewrite (left_flat c) by auto. intros (A & B & [(x & RX & RR & S)|(LR' & o0 & G & RR & N)]); split; auto; split; auto.
  - left. exists x. rewrite <- (fl_R c) in RX. apply (proj1 (reads_flat c g LR x)) in RX. auto.
  - right. rewrite <- (fl_R c) in LR'. apply (proj1 (lacks_flat c g LR)) in LR'. split; auto. destruct (flat_onto c o0 T) as [o1 ->]. exists o1. apply (proj1 (given_flat c g ai p o1 T)) in G. rewrite !(apart_flat c) in RR by auto. split; auto. split; auto.
    intros o' E1 E2. specialize (N (flatR c o')). rewrite !(apart_flat c) in N by auto. auto.
Qed.
Lemma inside_flat c M v : turned_plane c -> FloatArcSpec3.inside M v -> FloatArcSpec3.inside M (flatR c v).
Proof. intros [-> | ->] (A & B & D); repeat split; cbn; auto. Qed.
Lemma real_flat c v : real3 (flat c v) = flatR c (real3 v).
Proof. destruct c; reflexivity. Qed.

Section Laws.
Context {ar : Arith} (L : mathlib) (LW : lawful L) (acc : accurate ar) (ID : idempotent ar) (OD : odd ar) (SF : forall x, float (l_square L x)) (c : gclass) (T : turned_plane c).
Definition low (v : fvec) : Prop := fz (flat c v) = zero.
Lemma rr x : float (rnd x). Proof. apply ID. Qed.
Lemma low_add a b : low a -> low b -> low (add3 a b).
Proof. unfold low. destruct T as [-> | ->]; cbn; intros -> ->; apply add_0l; exact (r0 acc). Qed.
Lemma low_sub a b : low a -> low b -> low (sub3 a b).
Proof. unfold low. destruct T as [-> | ->]; cbn; intros -> ->; apply (sub_self acc). Qed.
Lemma low_scale a k : low a -> low (scale3 a k).
Proof. unfold low. destruct T as [-> | ->]; cbn; intros ->; apply (mul_0l acc). Qed.
Lemma add_flat a b : flat c (add3 a b) = add3 (flat c a) (flat c b). Proof. destruct T as [-> | ->]; reflexivity. Qed.
Lemma sub_flat a b : flat c (sub3 a b) = sub3 (flat c a) (flat c b). Proof. destruct T as [-> | ->]; reflexivity. Qed.
Lemma scale_flat a k : flat c (scale3 a k) = scale3 (flat c a) k. Proof. destruct T as [-> | ->]; reflexivity. Qed.
Lemma fadd_comm x y : fadd x y = fadd y x. Proof. unfold fadd. f_equal. ring. Qed.
Lemma mag_flat v : low v -> magnitude L (flat c v) = magnitude L v.
Proof.
  assert (Z : l_square L zero = zero) by apply LW. unfold low, magnitude. destruct T as [-> | ->]; cbn [flat fx fy fz]; intros E; rewrite E, Z; f_equal.
  - rewrite (add_0r (fadd _ _)) by apply rr. rewrite (add_0r (l_square L (fx v))) by apply SF. apply fadd_comm.
  - rewrite (add_0r (fadd _ _)) by apply rr. rewrite (add_0l (l_square L (fy v))) by apply SF. reflexivity.
Qed.
Lemma unit_flat v w : low v -> unit3 L v = Ok w -> unit3 L (flat c v) = Ok (flat c w) /\ low w.
Proof.
  intros LV. unfold unit3. rewrite (mag_flat v LV). destruct (magnitude L v) as [d|]; [|discriminate]. cbn [bind]. destruct (Qceqb d zero) eqn:D; intros E; injection E as <-; [auto|]. split; [destruct T as [-> | ->]; reflexivity|].
  assert (Z : fdiv zero d = zero) by (unfold fdiv; replace (zero / d)%Qc with zero by (unfold Qcdiv, zero; ring); exact (r0 acc)). unfold low in *. destruct T as [-> | ->]; cbn in *; rewrite LV; exact Z.
Qed.
Lemma proj_flat v n w : normal_of c = Some n -> float3 v -> projection L v n = Ok w -> projection L (flat c v) up = Ok (flat c w) /\ low w.
Proof.
  intros N F. assert (F' : float3 (flat c v)) by (destruct F as (A & B & D), T as [-> | ->]; repeat split; auto). rewrite (proj_xy L LW acc _ F'). unfold projection. rewrite (unit_normal L acc LW c n N). cbn [bind]. intros E. injection E as <-.
  destruct F as (X & Y & Z). destruct v as [x y z]. cbn [fx fy fz] in *. unfold low. destruct T as [-> | ->]; injection N as <-; unfold sub3, scale3, dot3; cbn [flat fx fy fz].
  - rewrite !(mul_0r acc), !(mul_0l acc), (mul_1r y) by auto. rewrite (add_0l y), (add_0r y) by auto. rewrite (mul_1l y), (sub_0r x), (sub_0r z), (sub_self acc) by auto. auto.
  - rewrite !(mul_0r acc), !(mul_0l acc), (mul_1r x) by auto. rewrite (add_0r x), (add_0r x) by auto. rewrite (mul_1l x), (sub_0r y), (sub_0r z), (sub_self acc) by auto. auto.
Qed.
Lemma cross_flat v n : normal_of c = Some n -> low v -> flat c (cross3 v n) = cross3 (flat c v) up /\ low (cross3 v n).
Proof.
  intros N LV. assert (S0 : fsub zero zero = zero) by apply (sub_self acc). assert (A0 : fadd zero zero = zero) by (apply add_0l; exact (r0 acc)).
  assert (NEG : forall x, fsub zero (rnd x) = fadd (rnd (- x)%Qc) zero). { intros x. rewrite (add_0r (rnd _)) by apply rr. unfold fsub. replace (zero - rnd x)%Qc with (- rnd x)%Qc by (unfold zero; ring). rewrite (OD (rnd x)), ID, (OD x). reflexivity. }
  assert (M1 : forall x, fmul x one = rnd x) by (intros x; unfold fmul; f_equal; unfold one; ring). assert (NZ : (- zero)%Qc = zero) by (unfold zero; ring).
  unfold low in *. destruct v as [x y z]. destruct T as [-> | ->]; injection N as <-; cbn [flat fx fy fz] in *; subst; unfold cross3; cbn [flat fx fy fz]; rewrite ?NZ, !(mul_0r acc), ?(mul_0l acc), !M1, ?S0, ?A0.
  - split; auto. f_equal. apply NEG.
  - split; auto. f_equal; [rewrite (add_0l (rnd z)), (sub_0r (rnd z)) by apply rr; reflexivity|apply NEG].
Qed.
Lemma middle_flat g g' n p p' r mid tc : normal_of c = Some n -> low p -> low p' -> middle L g n p p' r = Ok (mid, tc) -> middle L g' up (flat c p) (flat c p') r = Ok (flat c mid, flat c tc) /\ low mid /\ low tc.
Proof.
  intros N LP LQ. unfold middle. rewrite <- sub_flat, <- scale_flat. set (m := scale3 (sub3 p' p) (flit 1 2)). assert (LM : low m) by (apply low_scale, low_sub; auto). rewrite (mag_flat m LM).
  destruct (magnitude L m) as [h|]; [|discriminate]. cbn [bind]. destruct (Qcltb r h); [discriminate|]. destruct (unit3 L m) as [w|] eqn:EU; [|discriminate]. cbn [bind]. destruct (unit_flat m w LM EU) as [-> LU]. cbn [bind].
  destruct (sqrt L _) as [s|]; [|discriminate]. cbn [bind]. intros E. injection E as <- <-. destruct (cross_flat w n N LU) as [X LX']. rewrite <- X, <- scale_flat. split; auto. split; auto. apply low_scale. exact LX'.
Qed.
(** the circle is that of the XY plane *)
Lemma circle_of_flat g n a b ai e p p' o r : normal_of c = Some n -> gcode_wf g -> (forall l w x, In (l, w) (gparams g) -> wvalue w = VFloat x -> float x) -> float3 a -> float3 b ->
  circle_of L g a b n ai e = Ok (p, p', o, r) -> circle_of L (flat_gcode c g) (flat c a) (flat c b) up ai e = Ok (flat c p, flat c p', flat c o, r).
Proof.
  intros N W FW FA FB. unfold circle_of. destruct (projection L a n) as [P|] eqn:EP; [|discriminate]. destruct (proj_flat a n P N FA EP) as [-> LP]. cbn [bind]. destruct (projection L b n) as [P'|] eqn:EQ; [|discriminate]. destruct (proj_flat b n P' N FB EQ) as [-> LQ]. cbn [bind].
  rewrite (check_flat c g T). destruct (check_params g); [|discriminate]. cbn [bind]. pose proof (param_flat c g LR) as VR. rewrite fl_R in VR. rewrite VR. destruct (param_value g LR) as [ro|]; [|discriminate]. cbn [bind]. destruct ro as [x|].
  - rewrite <- sub_flat, mag_flat by (apply low_sub; auto). destruct (magnitude L (sub3 P P')) as [d|]; [|discriminate]. cbn [bind]. destruct (Qcltb d e); [discriminate|].
    destruct (middle L g n P P' (qc_abs x)) as [[mid tc]|] eqn:EM; [|discriminate]. destruct (middle_flat g (flat_gcode c g) n P P' _ mid tc N LP LQ EM) as (-> & LM & LT). cbn [bind]. intros E. injection E as <- <- <- <-. cbn [flat_gcode gcls].
    rewrite <- add_flat, <- sub_flat, <- add_flat. destruct (Bool.eqb _ _); reflexivity.
  - assert (OF : forall l y, arc_letter l -> param_value g l = Ok y -> float (or_else y zero)). { intros l y A E. destruct (word_value g l y W A E) as [_ V]. destruct y as [v|]; [|exact (r0 acc)]. destruct V as (_ & w & J & V). exact (FW _ _ _ J V). }
    destruct (param_value g LI) as [vi|] eqn:EI; [|discriminate]. cbn [bind]. destruct (param_value g LJ) as [vj|] eqn:EJ; [|discriminate]. cbn [bind]. destruct (param_value g LK) as [vk|] eqn:EK; [|discriminate]. cbn [bind].
    pose proof (OF LI vi ltac:(cbn; auto 10) EI) as FI. pose proof (OF LJ vj ltac:(cbn; auto 10) EJ) as FJ. pose proof (OF LK vk ltac:(cbn; auto 10) EK) as FK. clear OF.
    set (ijk := FV (or_else vi zero) (or_else vj zero) (or_else vk zero)).
    assert (K : exists vi' vj' vk', param_value (flat_gcode c g) LI = Ok vi' /\ param_value (flat_gcode c g) LJ = Ok vj' /\ param_value (flat_gcode c g) LK = Ok vk' /\ FV (or_else vi' zero) (or_else vj' zero) (or_else vk' zero) = flat c ijk).
    { destruct T as [-> | ->]; [exists vk, vi, vj|exists vj, vk, vi].
      - rewrite <- EI, <- EJ, <- EK. split; [exact (param_flat ZX g LK)|]. split; [exact (param_flat ZX g LI)|]. split; [exact (param_flat ZX g LJ)|]. reflexivity.
      - rewrite <- EI, <- EJ, <- EK. split; [exact (param_flat YZ g LJ)|]. split; [exact (param_flat YZ g LK)|]. split; [exact (param_flat YZ g LI)|]. reflexivity. }
    destruct K as (vi' & vj' & vk' & -> & -> & -> & K). cbn [bind]. rewrite K. clear K.
    set (c0 := if ai then add3 ijk a else ijk). assert (F0 : float3 c0) by (unfold c0; destruct ai; [repeat split; apply rr|repeat split; auto]). replace (if ai then add3 (flat c ijk) (flat c a) else flat c ijk) with (flat c c0) by (unfold c0; destruct ai; [apply add_flat|reflexivity]).
    destruct (projection L c0 n) as [C0|] eqn:EC; [|discriminate]. destruct (proj_flat c0 n C0 N F0 EC) as [-> LC]. cbn [bind]. rewrite <- !sub_flat, !mag_flat by (apply low_sub; auto).
    destruct (magnitude L (sub3 P C0)) as [d1|]; [|discriminate]. cbn [bind]. destruct (magnitude L (sub3 P' C0)) as [d2|]; [|discriminate]. cbn [bind].
    destruct (middle L g n P P' _) as [[mid tc]|] eqn:EM; [|discriminate]. destruct (middle_flat g (flat_gcode c g) n P P' _ mid tc N LP LQ EM) as (-> & LM & LT). cbn [bind].
    rewrite <- !add_flat, <- !sub_flat. rewrite !mag_flat by (apply low_sub; auto; first [apply low_sub; auto; apply low_add; auto|apply low_add; auto; apply low_add; auto]).
    destruct (magnitude L (sub3 (sub3 _ _) _)) as [e1|]; [|discriminate]. cbn [bind]. destruct (magnitude L (sub3 (add3 _ _) _)) as [e2|]; [|discriminate]. cbn [bind]. intros E. injection E as <- <- <- <-.
    rewrite <- ?add_flat, <- ?sub_flat. destruct (Qcltb e1 e2); reflexivity.
Qed.
End Laws.
