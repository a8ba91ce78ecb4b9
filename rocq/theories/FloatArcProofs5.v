(** Lemmas for C95: rounding errors of lengths and directions. *)
From Coq Require Import List Bool ZArith QArith Qcanon Qabs Qreals Reals Lia Lra Psatz.
From Verif Require Import Base Num Words GTable GCode Position Machine Transform BaseFacts NumFacts WordOrder PrintSpec PrintProofs PosProofs ArithSpec Float64 DrillProofs Arc ArcSpec ArcProofs2.
From Verif Require Import FloatArc FloatArcSpec FloatArcSpec3 FloatArcProofs.
Import ListNotations.
Open Scope R_scope.

(** ** rationals as reals *)
Lemma q_eq (a : Qc) q : (this a == q)%Q -> Qc2R a = Q2R q. Proof. intros H. apply Qeq_eqR. exact H. Qed.
Lemma q_add a b : Qc2R (a + b)%Qc = Qc2R a + Qc2R b. Proof. rewrite (q_eq _ _ (this_add a b)). apply Q2R_plus. Qed.
Lemma q_mul a b : Qc2R (a * b)%Qc = Qc2R a * Qc2R b. Proof. rewrite (q_eq _ _ (this_mul a b)). apply Q2R_mult. Qed.
Lemma q_opp a : Qc2R (- a)%Qc = - Qc2R a. Proof. rewrite (q_eq _ _ (this_opp a)). apply Q2R_opp. Qed.
Lemma q_sub a b : Qc2R (a - b)%Qc = Qc2R a - Qc2R b. Proof. rewrite (q_eq _ _ (this_sub a b)). apply Q2R_minus. Qed.
Lemma q_inj a b : Qc2R a = Qc2R b -> a = b. Proof. intros H. apply Qc_is_canon. apply eqR_Qeq. exact H. Qed.
Lemma q_int z : Qc2R (Qc_of_Z z) = IZR z. Proof. rewrite (q_eq _ _ (this_Z z)). unfold Q2R, inject_Z. cbn. field. Qed.
Lemma q_frac n d : Qc2R (frac n d) = IZR n / IZR (Zpos d). Proof. rewrite (q_eq _ _ (this_frac n d)). reflexivity. Qed.
Lemma q_zero : Qc2R zero = 0. Proof. unfold Qc2R, zero, Q2R. cbn. field. Qed.
Lemma q_one : Qc2R one = 1. Proof. unfold Qc2R, one, Q2R. cbn. field. Qed.
Lemma q_two : Qc2R (Q2Qc 2) = 2. Proof. unfold Qc2R, Q2R. cbn. field. Qed.
Lemma q_four : Qc2R (Q2Qc 4) = 4. Proof. unfold Qc2R, Q2R. cbn. field. Qed.
Lemma q_div a b : Qc2R b <> 0 -> Qc2R (a / b)%Qc = Qc2R a / Qc2R b.
Proof.
  intros H. apply Rmult_eq_reg_r with (Qc2R b); auto. rewrite <- q_mul. replace (a / b * b)%Qc with a; [field; auto|]. field. intros E. apply H. rewrite E. exact q_zero.
Qed.
Lemma q_lt a b : Qcltb a b = true <-> Qc2R a < Qc2R b.
Proof. rewrite Qcltb_lt. unfold Qclt. split; [apply Qlt_Rlt|apply Rlt_Qlt]. Qed.
Lemma q_ge a b : Qcltb a b = false <-> Qc2R b <= Qc2R a.
Proof. pose proof (q_lt a b) as H. destruct (Qcltb a b); split; intros X; try discriminate; auto; [apply proj1 in H; specialize (H eq_refl); lra|]. apply Rnot_lt_le. intros Y. apply H in Y. discriminate. Qed.
Lemma q_abs a : Qc2R (qc_abs a) = Rabs (Qc2R a).
Proof.
  unfold qc_abs. destruct (Qcltb a zero) eqn:E.
  - apply q_lt in E. rewrite q_zero in E. rewrite q_opp, Rabs_left; auto.
  - apply q_ge in E. rewrite q_zero in E. rewrite Rabs_right; auto. lra.
Qed.
Lemma q_eqb a b : Qceqb a b = false -> Qc2R a <> Qc2R b.
Proof. intros H E. apply q_inj in E. subst. assert (Qceqb b b = true) by (apply Qceqb_eq; reflexivity). congruence. Qed.

(** ** absolute values *)
Lemma ab x y : Rabs x <= y <-> - y <= x <= y.
Proof. split; [intros H|apply Rabs_le]. unfold Rabs in H. destruct (Rcase_abs x); lra. Qed.
Lemma ab_pos x : 0 <= Rabs x. Proof. apply Rabs_pos. Qed.
Lemma ab_self x : - Rabs x <= x <= Rabs x. Proof. apply ab. lra. Qed.
(** the length of (x, y) *)
Definition len (x y : R) : R := R_sqrt.sqrt (x * x + y * y).
Lemma len_pos x y : 0 <= len x y. Proof. apply sqrt_pos. Qed.
Lemma len_sq x y : len x y * len x y = x * x + y * y. Proof. apply sqrt_sqrt. pose proof (Rle_0_sqr x). pose proof (Rle_0_sqr y). unfold Rsqr in *. lra. Qed.
Lemma sq_le x y : 0 <= y -> x * x <= y * y -> x <= y.
Proof. intros P H. destruct (Rle_dec x y); auto. exfalso. assert (y * y < x * x) by (apply Rmult_le_0_lt_compat; lra). lra. Qed.
Lemma len_x x y : Rabs x <= len x y.
Proof. apply sq_le; [apply len_pos|]. rewrite len_sq, <- Rabs_mult, Rabs_right by (apply Rle_ge, Rle_0_sqr). pose proof (Rle_0_sqr y). unfold Rsqr in *. lra. Qed.
Lemma len_y x y : Rabs y <= len x y.
Proof. apply sq_le; [apply len_pos|]. rewrite len_sq, <- Rabs_mult, Rabs_right by (apply Rle_ge, Rle_0_sqr). pose proof (Rle_0_sqr x). unfold Rsqr in *. lra. Qed.
Lemma len_sum x y : len x y <= Rabs x + Rabs y.
Proof. apply sq_le; [pose proof (ab_pos x); pose proof (ab_pos y); lra|]. rewrite len_sq. assert (A : forall z, z * z = Rabs z * Rabs z) by (intros z; rewrite <- Rabs_mult, Rabs_right; auto; apply Rle_ge, Rle_0_sqr). rewrite (A x), (A y). pose proof (Rmult_le_pos _ _ (ab_pos x) (ab_pos y)). lra. Qed.
Lemma len_eq x y d : 0 <= d -> x * x + y * y = d * d -> len x y = d.
Proof. intros P H. unfold len. rewrite H. apply sqrt_square; auto. Qed.
Lemma len_scale k x y : len (k * x) (k * y) = Rabs k * len x y.
Proof. apply len_eq; [apply Rmult_le_pos; [apply ab_pos|apply len_pos]|]. replace (Rabs k * len x y * (Rabs k * len x y)) with ((Rabs k * Rabs k) * (len x y * len x y)) by ring. rewrite len_sq, <- Rabs_mult, Rabs_right by (apply Rle_ge, Rle_0_sqr). ring. Qed.
Lemma len_add a b c d : len (a + c) (b + d) <= len a b + len c d.
Proof.
  apply sq_le; [pose proof (len_pos a b); pose proof (len_pos c d); lra|]. rewrite len_sq.
  assert (CS : a * c + b * d <= len a b * len c d).
  { apply sq_le; [apply Rmult_le_pos; apply len_pos|]. replace (len a b * len c d * (len a b * len c d)) with ((len a b * len a b) * (len c d * len c d)) by ring. rewrite !len_sq. pose proof (Rle_0_sqr (a * d - b * c)) as S. unfold Rsqr in S. lra. }
  replace ((len a b + len c d) * (len a b + len c d)) with (len a b * len a b + len c d * len c d + 2 * (len a b * len c d)) by ring. rewrite !len_sq. lra.
Qed.
Lemma len_near a b c d : Rabs (len a b - len c d) <= len (a - c) (b - d).
Proof.
  pose proof (len_add (a - c) (b - d) c d) as A. pose proof (len_add (c - a) (d - b) a b) as B.
  replace (a - c + c) with a in A by ring. replace (b - d + d) with b in A by ring. replace (c - a + a) with c in B by ring. replace (d - b + b) with d in B by ring.
  replace (len (c - a) (d - b)) with (len (a - c) (b - d)) in B by (unfold len; f_equal; ring). apply ab. lra.
Qed.
Lemma len_diff a b c d x y : Rabs (a - c) <= x -> Rabs (b - d) <= y -> Rabs (len a b - len c d) <= x + y.
Proof. intros A B. pose proof (len_near a b c d). pose proof (len_sum (a - c) (b - d)). lra. Qed.
Lemma apart_len c p q : apart c p q = len (pu c p - pu c q) (pv c p - pv c q). Proof. reflexivity. Qed.

(** ** one rounding *)
Section Laws.
Context {ar : Arith} (L : mathlib) (u i : R) (C : close_to_real ar L u i) (U : 0 < u <= / 1000000) (I : 0 < i <= u).
Lemma ii : 0 < i * i <= i * / 1000000. Proof. split; [apply Rmult_lt_0_compat; lra|apply Rmult_le_compat_l; lra]. Qed.
Lemma uu : 0 < u * u <= u * / 1000000. Proof. split; [apply Rmult_lt_0_compat; lra|apply Rmult_le_compat_l; lra]. Qed.
Lemma f_add a b : Rabs (Qc2R (fadd a b) - (Qc2R a + Qc2R b)) <= u * (Rabs (Qc2R a + Qc2R b) + i * i). Proof. rewrite <- q_add. apply (near_rnd _ _ _ _ C). Qed.
Lemma f_sub a b : Rabs (Qc2R (fsub a b) - (Qc2R a - Qc2R b)) <= u * (Rabs (Qc2R a - Qc2R b) + i * i). Proof. rewrite <- q_sub. apply (near_rnd _ _ _ _ C). Qed.
Lemma f_mul a b : Rabs (Qc2R (fmul a b) - Qc2R a * Qc2R b) <= u * (Rabs (Qc2R a * Qc2R b) + i * i). Proof. rewrite <- q_mul. apply (near_rnd _ _ _ _ C). Qed.
Lemma f_div a b : Qc2R b <> 0 -> Rabs (Qc2R (fdiv a b) - Qc2R a / Qc2R b) <= u * (Rabs (Qc2R a / Qc2R b) + i * i). Proof. intros H. rewrite <- q_div by auto. apply (near_rnd _ _ _ _ C). Qed.
Lemma f_lit n d : Rabs (Qc2R (flit n d) - IZR n / IZR (Zpos d)) <= u * (Rabs (IZR n / IZR (Zpos d)) + i * i). Proof. rewrite <- q_frac. apply (near_rnd _ _ _ _ C). Qed.
Lemma f_int z : Rabs (Qc2R (float_of_int z) - IZR z) <= u * (Rabs (IZR z) + i * i). Proof. rewrite <- q_int. apply (near_rnd _ _ _ _ C). Qed.
Lemma div_ok a b x : div a b = Ok x -> Qc2R b <> 0 /\ x = fdiv a b.
Proof. unfold div. destruct (Qceqb b zero) eqn:E; [discriminate|]. intros H. injection H as <-. split; auto. apply q_eqb in E. rewrite q_zero in E. auto. Qed.
(** a product of nearby numbers: [a] near [A], [b] near [B] *)
Lemma prod_near a b A B x y : Rabs (a - A) <= x -> Rabs (b - B) <= y -> Rabs (a * b - A * B) <= x * Rabs B + Rabs A * y + x * y.
Proof.
  intros H K. replace (a * b - A * B) with ((a - A) * B + A * (b - B) + (a - A) * (b - B)) by ring.
  eapply Rle_trans; [apply Rabs_triang|]. eapply Rle_trans; [apply Rplus_le_compat_r, Rabs_triang|]. rewrite !Rabs_mult. pose proof (ab_pos (a - A)). pose proof (ab_pos (b - B)).
  apply Rplus_le_compat; [apply Rplus_le_compat|].
  - apply Rmult_le_compat_r; auto. apply ab_pos.
  - apply Rmult_le_compat_l; auto. apply ab_pos.
  - apply Rmult_le_compat; auto.
Qed.
Lemma f_mul_near a b A B x y : Rabs (Qc2R a - A) <= x -> Rabs (Qc2R b - B) <= y -> Rabs (Qc2R (fmul a b) - A * B) <= (1 + u) * (x * Rabs B + Rabs A * y + x * y) + u * (Rabs A * Rabs B + i * i).
Proof.
  intros H K. pose proof (prod_near _ _ _ _ _ _ H K) as P. pose proof (f_mul a b) as M. set (z := x * Rabs B + Rabs A * y + x * y) in *.
  assert (T : Rabs (Qc2R a * Qc2R b) <= Rabs A * Rabs B + z). { replace (Qc2R a * Qc2R b) with (A * B + (Qc2R a * Qc2R b - A * B)) by ring. eapply Rle_trans; [apply Rabs_triang|]. rewrite Rabs_mult. lra. }
  replace (Qc2R (fmul a b) - A * B) with ((Qc2R (fmul a b) - Qc2R a * Qc2R b) + (Qc2R a * Qc2R b - A * B)) by ring. eapply Rle_trans; [apply Rabs_triang|].
  assert (u * (Rabs (Qc2R a * Qc2R b) + i * i) <= u * (Rabs A * Rabs B + z + i * i)) by (apply Rmult_le_compat_l; lra). lra.
Qed.
Lemma f_add_near a b A B x y : Rabs (Qc2R a - A) <= x -> Rabs (Qc2R b - B) <= y -> Rabs (Qc2R (fadd a b) - (A + B)) <= (1 + u) * (x + y) + u * (Rabs (A + B) + i * i).
Proof.
  intros H K. pose proof (f_add a b) as M. assert (P : Rabs (Qc2R a + Qc2R b - (A + B)) <= x + y) by (apply ab in H, K; apply ab; lra).
  assert (T : Rabs (Qc2R a + Qc2R b) <= Rabs (A + B) + (x + y)). { replace (Qc2R a + Qc2R b) with (A + B + (Qc2R a + Qc2R b - (A + B))) by ring. eapply Rle_trans; [apply Rabs_triang|]. lra. }
  replace (Qc2R (fadd a b) - (A + B)) with ((Qc2R (fadd a b) - (Qc2R a + Qc2R b)) + (Qc2R a + Qc2R b - (A + B))) by ring. eapply Rle_trans; [apply Rabs_triang|].
  assert (u * (Rabs (Qc2R a + Qc2R b) + i * i) <= u * (Rabs (A + B) + (x + y) + i * i)) by (apply Rmult_le_compat_l; lra). lra.
Qed.
Lemma f_sub_near a b A B x y : Rabs (Qc2R a - A) <= x -> Rabs (Qc2R b - B) <= y -> Rabs (Qc2R (fsub a b) - (A - B)) <= (1 + u) * (x + y) + u * (Rabs (A - B) + i * i).
Proof.
  intros H K. pose proof (f_sub a b) as M. assert (P : Rabs (Qc2R a - Qc2R b - (A - B)) <= x + y) by (apply ab in H, K; apply ab; lra).
  assert (T : Rabs (Qc2R a - Qc2R b) <= Rabs (A - B) + (x + y)). { replace (Qc2R a - Qc2R b) with (A - B + (Qc2R a - Qc2R b - (A - B))) by ring. eapply Rle_trans; [apply Rabs_triang|]. lra. }
  replace (Qc2R (fsub a b) - (A - B)) with ((Qc2R (fsub a b) - (Qc2R a - Qc2R b)) + (Qc2R a - Qc2R b - (A - B))) by ring. eapply Rle_trans; [apply Rabs_triang|].
  assert (u * (Rabs (Qc2R a - Qc2R b) + i * i) <= u * (Rabs (A - B) + (x + y) + i * i)) by (apply Rmult_le_compat_l; lra). lra.
Qed.

(** ** lengths *)
Lemma root_near X N v : 0 <= X -> 0 < N -> 0 <= v -> Rabs (X - N * N) <= v * (N * N) -> Rabs (R_sqrt.sqrt X - N) <= v * N.
Proof.
  intros P Q V H. pose proof (sqrt_pos X) as S. pose proof (sqrt_sqrt X P) as E. set (s := R_sqrt.sqrt X) in *.
  assert (F : Rabs (s - N) * (s + N) = Rabs (X - N * N)). { rewrite <- (Rabs_right (s + N)) by lra. rewrite <- Rabs_mult. f_equal. rewrite <- E. ring. }
  apply Rmult_le_reg_r with (s + N); [lra|]. rewrite F. apply Rle_trans with (1 := H). replace (v * (N * N)) with (v * N * N) by ring. apply Rmult_le_compat_l; [apply Rmult_le_pos; lra|lra].
Qed.
Context (LW : lawful L) (acc : accurate ar).
Lemma sum_near x y : let X := Qc2R x in let Y := Qc2R y in Rabs (Qc2R (fadd (fadd (l_square L x) (l_square L y)) (l_square L zero)) - (X * X + Y * Y)) <= u * (4 * (X * X + Y * Y) + 5 * (i * i)).
Proof.
  cbv zeta. destruct LW as (_ & Q0 & _). fold zero in Q0. rewrite Q0. pose proof (near_square _ _ _ _ C x) as A. pose proof (near_square _ _ _ _ C y) as B. unfold off in A, B.
  rewrite (Rabs_right (Qc2R x * Qc2R x)) in A by (apply Rle_ge, Rle_0_sqr). rewrite (Rabs_right (Qc2R y * Qc2R y)) in B by (apply Rle_ge, Rle_0_sqr). pose proof (Rle_0_sqr (Qc2R x)) as P. pose proof (Rle_0_sqr (Qc2R y)) as Q. unfold Rsqr in P, Q.
  set (X := Qc2R x * Qc2R x) in *. set (Y := Qc2R y * Qc2R y) in *. pose proof (f_add_near _ _ _ _ _ _ A B) as S. rewrite (Rabs_right (X + Y)) in S by lra.
  assert (Z : Rabs (Qc2R zero - 0) <= 0) by (rewrite q_zero, Rminus_0_r, Rabs_R0; lra). pose proof (f_add_near _ _ _ _ _ _ S Z) as T. rewrite !Rplus_0_r in T. rewrite (Rabs_right (X + Y)) in T by lra. pose proof ii. pose proof uu. apply Rle_trans with (1 := T). 
  set (W := X + Y) in *. assert (0 <= W) by (unfold W; lra). replace (u * (X + i * i) + u * (Y + i * i)) with (u * (W + 2 * (i * i))) by (unfold W; ring).
  set (k := i * i) in *. assert (UW : 0 <= u * W) by (apply Rmult_le_pos; lra). assert (UK : 0 <= u * k) by (apply Rmult_le_pos; lra).
  assert (uw : u * (u * W) <= / 1000000 * (u * W)) by (apply Rmult_le_compat_r; lra). assert (uk : u * (u * k) <= / 1000000 * (u * k)) by (apply Rmult_le_compat_r; lra).
  assert (uuw : u * (u * (u * W)) <= / 1000000 * (u * W)). { apply Rle_trans with (u * (/ 1000000 * (u * W))); [apply Rmult_le_compat_l; lra|]. apply Rle_trans with (1 * (/ 1000000 * (u * W))); [apply Rmult_le_compat_r; lra|lra]. }
  assert (uuk : u * (u * (u * k)) <= / 1000000 * (u * k)). { apply Rle_trans with (u * (/ 1000000 * (u * k))); [apply Rmult_le_compat_l; lra|]. apply Rle_trans with (1 * (/ 1000000 * (u * k))); [apply Rmult_le_compat_r; lra|lra]. }
  lra.
Qed.
(** the length of a vector of the plane that is not tiny *)
Lemma magnitude_near x y d : let N := len (Qc2R x) (Qc2R y) in i <= N -> magnitude L (FV x y zero) = Ok d -> Rabs (Qc2R d - N) <= 12 * u * N.
Proof.
  cbv zeta. set (N := len _ _). intros B. unfold magnitude, sqrt. cbn [fx fy fz]. pose proof (sum_near x y) as S. cbv zeta in S. rewrite <- len_sq in S. fold N in S. set (X := fadd _ _) in *. destruct (Qcltb X zero) eqn:E; [discriminate|]. apply q_ge in E. rewrite q_zero in E. intros H. injection H as <-.
  assert (NN : i * i <= N * N) by (apply Rmult_le_compat; lra). assert (NP : 0 <= N * N) by (pose proof ii; lra).
  assert (S' : Rabs (Qc2R X - N * N) <= (9 * u) * (N * N)). { apply Rle_trans with (1 := S). replace (9 * u * (N * N)) with (u * (9 * (N * N))) by ring. apply Rmult_le_compat_l; lra. }
  pose proof (root_near (Qc2R X) N (9 * u) E ltac:(lra) ltac:(lra) S') as R. pose proof (near_sqrt _ _ _ _ C X E) as Q. unfold off in Q. pose proof (sqrt_pos (Qc2R X)) as P. set (s := R_sqrt.sqrt (Qc2R X)) in *. rewrite (Rabs_right s) in Q by lra.
  assert (IN : i * i <= N * / 1000000). { apply Rle_trans with (1 := proj2 ii). apply Rmult_le_compat_r; lra. } assert (UN : 0 <= u * N) by (apply Rmult_le_pos; lra). assert (UN2 : u * (u * N) <= / 1000000 * (u * N)) by (apply Rmult_le_compat_r; lra).
  apply ab in R. assert (SN : s <= N + 9 * u * N) by lra. assert (Q2 : Rabs (Qc2R (l_sqrt L X) - s) <= u * (N + 9 * u * N + N * / 1000000)) by (apply Rle_trans with (1 := Q); apply Rmult_le_compat_l; lra). apply ab in Q2. apply ab. lra.
Qed.
(** and of any, up to something tiny *)
Lemma magnitude_any x y d : let N := len (Qc2R x) (Qc2R y) in magnitude L (FV x y zero) = Ok d -> Rabs (Qc2R d - N) <= 12 * u * N + 4 * i.
Proof.
  cbv zeta. intros H. destruct (Rle_dec i (len (Qc2R x) (Qc2R y))) as [G|G]; [pose proof (magnitude_near x y d G H); lra|]. apply Rnot_le_lt in G. pose proof (len_pos (Qc2R x) (Qc2R y)) as NP. revert H. unfold magnitude, sqrt. cbn [fx fy fz]. pose proof (sum_near x y) as S. cbv zeta in S. rewrite <- len_sq in S. set (N := len _ _) in *. set (X := fadd _ _) in *.
  destruct (Qcltb X zero) eqn:E; [discriminate|]. apply q_ge in E. rewrite q_zero in E. intros H. injection H as <-. pose proof ii as II.
  assert (NN : N * N <= i * i) by (apply Rmult_le_compat; lra). assert (S' : Rabs (Qc2R X - N * N) <= i * i). { apply Rle_trans with (1 := S). apply Rle_trans with (u * (9 * (i * i))); [apply Rmult_le_compat_l; lra|]. replace (u * (9 * (i * i))) with ((9 * u) * (i * i)) by ring. apply Rle_trans with (1 * (i * i)); [apply Rmult_le_compat_r; lra|lra]. }
  pose proof (near_sqrt _ _ _ _ C X E) as Q. unfold off in Q. pose proof (sqrt_pos (Qc2R X)) as P. pose proof (sqrt_sqrt (Qc2R X) E) as SS. set (s := R_sqrt.sqrt (Qc2R X)) in *. rewrite (Rabs_right s) in Q by lra. apply ab in S'.
  assert (S2 : s <= 2 * i). { apply sq_le; [lra|]. rewrite SS. lra. } assert (UN : 0 <= u * N) by (apply Rmult_le_pos; lra). assert (UI : u * (2 * i + i * / 1000000) <= i). { apply Rle_trans with (/ 1000000 * (2 * i + i * / 1000000)); [apply Rmult_le_compat_r; lra|lra]. }
  assert (Q2 : Rabs (Qc2R (l_sqrt L X) - s) <= i) by (apply Rle_trans with (1 := Q); apply Rle_trans with (2 := UI); apply Rmult_le_compat_l; lra). apply ab in Q2. apply ab. lra.
Qed.
End Laws.
