(** A square root that is rounded correctly to binary64. *)
From Coq Require Import List Bool ZArith QArith Qcanon Qabs Qround Lia Lqa Psatz.
From Verif Require Import Base Num WordOrder NumFacts ArithSpec PrintProofs DrillProofs Float64 FloatArc FloatArcSpec2.
Open Scope Z_scope.

(** every binary64 number is a multiple of 2^-1074; between two multiples of 2^-1075 there is neither one nor a middle between two *)
Definition grid : Q := p2 (-1075).
Lemma p2_grid e : -1075 <= e -> exists n, 0 < n /\ (p2 e == inject_Z n * grid)%Q.
Proof.
  intros H. exists (2 ^ (e + 1075)). split; [apply Z.pow_pos_nonneg; lia|]. unfold grid. rewrite <- (p2_Z (e + 1075)) by lia. rewrite <- p2_plus. replace (e + 1075 + -1075) with e by lia. reflexivity.
Qed.
Lemma grid_pos : (0 < grid)%Q. Proof. apply p2_pos. Qed.
Lemma frac_grid n : (n # Z.to_pos (2 ^ 1075) == inject_Z n * grid)%Q.
Proof. assert (E : (grid == 1 # Z.to_pos (2 ^ 1075))%Q) by (vm_compute; reflexivity). rewrite E. unfold Qeq, inject_Z. cbn [Qmult Qnum Qden]. rewrite Z.mul_1_r, Pos.mul_1_l. reflexivity. Qed.
Lemma half_grid : (1 # Z.to_pos (2 ^ 1076) == (1 # 2) * grid)%Q.
Proof. vm_compute. reflexivity. Qed.
Lemma grid_square : (grid * grid * inject_Z (2 ^ 2150) == 1)%Q.
Proof. vm_compute. reflexivity. Qed.
Global Opaque grid.
Lemma grid_lt a b : (inject_Z a * grid < inject_Z b * grid)%Q <-> a < b.
Proof. rewrite Qmult_lt_r by apply grid_pos. apply inject_Z_lt'. Qed.
Lemma grid_le a b : (inject_Z a * grid <= inject_Z b * grid)%Q <-> a <= b.
Proof. rewrite Qmult_le_r by apply grid_pos. apply inject_Z_le'. Qed.
Definition cell (k : Z) (u : Q) : Prop := (inject_Z k * grid < u < inject_Z (k + 1) * grid)%Q.
Lemma cell_le k u n : cell k u -> (inject_Z n * grid <= u)%Q -> n <= k.
Proof. intros [_ H] E. assert (Q : (inject_Z n * grid < inject_Z (k + 1) * grid)%Q) by (eapply Qle_lt_trans; eauto). apply (proj1 (grid_lt _ _)) in Q. lia. Qed.
Lemma cell_ge k u n : cell k u -> (u <= inject_Z n * grid)%Q -> k + 1 <= n.
Proof. intros [H _] E. assert (Q : (inject_Z k * grid < inject_Z n * grid)%Q) by (eapply Qlt_le_trans; eauto). apply (proj1 (grid_lt _ _)) in Q. lia. Qed.
Lemma le_cell k u n : cell k u -> n <= k -> (inject_Z n * grid < u)%Q.
Proof. intros [H _] E. apply (proj2 (grid_le _ _)) in E. eapply Qle_lt_trans; eauto. Qed.
Lemma ge_cell k u n : cell k u -> k + 1 <= n -> (u < inject_Z n * grid)%Q.
Proof. intros [_ H] E. apply (proj2 (grid_le _ _)) in E. eapply Qlt_le_trans; eauto. Qed.
Lemma cell_pos k u : 0 <= k -> cell k u -> (0 < u)%Q.
Proof. intros K C. pose proof (le_cell _ _ 0 C K) as H. rewrite Qmult_0_l in H. exact H. Qed.
Lemma cell_expo k u v : 0 <= k -> cell k u -> cell k v -> expo u = expo v.
Proof.
  intros K CU CV. pose proof (cell_pos _ _ K CU) as PU. pose proof (cell_pos _ _ K CV) as PV. assert (NU : (~ u == 0)%Q) by lra.
  pose proof (qlog2_low u NU) as LO. pose proof (qlog2_high u NU) as HI. rewrite Qabs_pos in LO, HI by lra. set (a := qlog2 u) in *. destruct (Z_le_gt_dec (-1075) a) as [A|A].
  - destruct (p2_grid a A) as (n & _ & N). destruct (p2_grid (a + 1)) as (n' & _ & N'); [lia|]. rewrite N in LO. rewrite N' in HI. apply (cell_le k) in LO; auto. assert (HI' : (u <= inject_Z n' * grid)%Q) by lra. apply (cell_ge k) in HI'; auto.
    assert (E : qlog2 v = a). { apply qlog2_unique. rewrite Qabs_pos, N, N' by lra. split; [apply Qlt_le_weak|]; eauto using le_cell, ge_cell. } unfold expo. fold a. rewrite E. reflexivity.
  - assert (H : (p2 (a + 1) <= p2 (-1075))%Q) by (apply p2_le; lia). destruct (p2_grid (-1075)) as (n & _ & N); [lia|]. rewrite N in H. assert (HI' : (u <= inject_Z n * grid)%Q) by lra. apply (cell_ge k) in HI'; auto.
    pose proof (ge_cell _ _ _ CV HI') as Q. rewrite <- N in Q. assert (NV : (~ v == 0)%Q) by lra. pose proof (qlog2_low v NV) as LV. rewrite Qabs_pos in LV by lra. assert (V : qlog2 v < -1075) by (apply p2_lt_inv; lra).
    unfold expo. fold a. rewrite !Z.max_r by lia. reflexivity.
Qed.
Lemma cell_round k u v : 0 <= k -> cell k u -> cell k v -> (rq u == rq v)%Q.
Proof.
  intros K CU CV. unfold rq. rewrite <- (cell_expo k u v) by auto. set (e := expo u). assert (E : -1074 <= e) by (unfold e, expo; lia). destruct (p2_grid (e - 1)) as (m & _ & M); [lia|].
  set (z := rhe (u * p2 (- e))). assert (RZ : rhe (v * p2 (- e)) = z); [|rewrite RZ; reflexivity]. pose proof (rhe_err (u * p2 (- e))) as ER. fold z in ER.
  pose proof (p2_pos e) as PE. pose proof (p2_pos (- e)) as PN. pose proof (p2_inv e) as IN.
  assert (H2 : (p2 e == 2 * p2 (e - 1))%Q) by (replace e with (e - 1 + 1) at 1 by lia; rewrite p2_plus; change (p2 1) with 2%Q; ring). rewrite M in H2.
  assert (SC : forall w, (w * p2 (- e) * p2 e == w)%Q) by (intros w; rewrite <- Qmult_assoc, (Qmult_comm (p2 (- e))), IN; ring).
  assert (MG : forall w, (inject_Z (w * m) * grid == inject_Z w * (1 # 2) * p2 e)%Q) by (intros w; rewrite H2, inject_Z_mult; ring).
  assert (LW : (inject_Z (2 * z - 1) * (1 # 2) == inject_Z z - (1 # 2))%Q) by (unfold Z.sub; rewrite inject_Z_plus, inject_Z_mult; generalize (inject_Z z); intros w; change (inject_Z 2) with 2%Q; try change (inject_Z 1) with 1%Q; try change (inject_Z (- (1))) with (- (1))%Q; field).
  assert (HW : (inject_Z (2 * z + 1) * (1 # 2) == inject_Z z + (1 # 2))%Q) by (rewrite inject_Z_plus, inject_Z_mult; generalize (inject_Z z); intros w; change (inject_Z 2) with 2%Q; try change (inject_Z 1) with 1%Q; try change (inject_Z (- (1))) with (- (1))%Q; field).
  assert (LO : (inject_Z ((2 * z - 1) * m) * grid <= u)%Q). { rewrite MG, LW. rewrite <- (SC u). apply Qmult_le_compat_r; lra. }
  assert (HI : (u <= inject_Z ((2 * z + 1) * m) * grid)%Q). { rewrite MG, HW. rewrite <- (SC u). apply Qmult_le_compat_r; lra. }
  apply (cell_le k) in LO; auto. apply (cell_ge k) in HI; auto. apply (le_cell k v) in LO; auto. apply (ge_cell k v) in HI; auto. rewrite MG, LW, <- (SC v) in LO. rewrite MG, HW, <- (SC v) in HI.
  apply Qmult_lt_r in LO, HI; auto. apply rhe_near. lra.
Qed.
Lemma cell_rnd k u v : 0 <= k -> cell k (this u) -> cell k (this v) -> rnd64 u = rnd64 v.
Proof.
  intros K CU CV. apply Qc_is_canon. rewrite !rnd64_rq; [apply (cell_round k); auto| |]; [pose proof (cell_pos _ _ K CV)|pose proof (cell_pos _ _ K CU)]; lra.
Qed.

(** the root down to a multiple of 2^-1075; when it is not exact, the rounding of anything in that cell *)
Definition half_root (x : Qc) : Z := Z.sqrt (Qfloor (this x * inject_Z (2 ^ 2150))).
Definition on_grid (k : Z) : Qc := Q2Qc (k # Z.to_pos (2 ^ 1075)).
Definition half_cell : Qc := Q2Qc (1 # Z.to_pos (2 ^ 1076)).
Definition root64 (x : Qc) : Qc :=
  let s := on_grid (half_root x) in
  if Qceqb (s * s)%Qc x then rnd64 s else rnd64 (s + half_cell)%Qc.
Lemma this_on_grid k : (this (on_grid k) == inject_Z k * grid)%Q.
Proof. unfold on_grid. cbn [this Q2Qc]. rewrite Qred_correct. apply frac_grid. Qed.
Lemma this_half_cell : (this half_cell == (1 # 2) * grid)%Q.
Proof. unfold half_cell. cbn [this Q2Qc]. rewrite Qred_correct. apply half_grid. Qed.
Lemma half_root_spec x : (0 <= this x)%Q -> let k := half_root x in 0 <= k /\ (inject_Z k * grid * (inject_Z k * grid) <= this x < inject_Z (k + 1) * grid * (inject_Z (k + 1) * grid))%Q.
Proof.
  intros H. cbn zeta. pose proof grid_square as GS. pose proof grid_pos as GP. unfold half_root. set (N := inject_Z (2 ^ 2150)) in *. assert (NP : (0 < N)%Q) by reflexivity. clearbody N. set (X := (this x * N)%Q). assert (XP : (0 <= X)%Q) by (unfold X; nra).
  pose proof (Qfloor_le X) as F1. pose proof (Qlt_floor X) as F2. assert (F0 : 0 <= Qfloor X) by (apply (Qfloor_resp_le 0) in XP; exact XP). destruct (Z.sqrt_spec _ F0) as [S1 S2]. pose proof (Z.sqrt_nonneg (Qfloor X)) as K. fold X in S1, S2. set (k := Z.sqrt (Qfloor X)) in *. replace (Z.succ k) with (k + 1) in S2 by lia.
  split; auto. assert (S2' : Qfloor X + 1 <= (k + 1) * (k + 1)) by lia. apply inject_Z_le' in S1, S2'. rewrite inject_Z_mult in S1, S2'. rewrite inject_Z_plus in F2.
  assert (E : forall w, (w * grid * (w * grid) * N == w * w)%Q) by (intros w; transitivity (w * w * (grid * grid * N))%Q; [ring|rewrite GS; ring]).
  split; [apply (Qmult_le_r _ _ N); auto; rewrite E; fold X; eapply Qle_trans; eauto|]. apply (Qmult_lt_r _ _ N); auto. rewrite E. fold X. eapply Qlt_le_trans; [|exact S2']. rewrite inject_Z_plus. exact F2.
Qed.
Lemma square_le a b : (0 <= a)%Q -> (0 <= b)%Q -> (a * a < b * b)%Q -> (a < b)%Q.
Proof. intros A B H. destruct (Qlt_le_dec a b) as [C|C]; auto. nra. Qed.
Lemma root64_right x s : (Q2Qc 0 <= x)%Qc -> (Q2Qc 0 <= s)%Qc -> ((s * s <= x)%Qc -> (rnd64 s <= root64 x)%Qc) /\ ((x <= s * s)%Qc -> (root64 x <= rnd64 s)%Qc).
Proof.
  intros X0 S0. unfold Qcle in X0, S0. change (this (Q2Qc 0)) with 0%Q in *. destruct (half_root_spec x X0) as (K & LO & HI). cbn zeta in *. unfold root64. set (k := half_root x) in *. pose proof (this_on_grid k) as TG. set (c := on_grid k) in *. pose proof this_half_cell as TH. pose proof grid_pos as GP.
  assert (KP : (0 <= inject_Z k)%Q) by (apply (inject_Z_le' 0); auto). assert (K1 : (inject_Z (k + 1) == inject_Z k + 1)%Q) by (rewrite inject_Z_plus; reflexivity).
  assert (CP : (0 <= this c)%Q) by (rewrite TG; apply Qmult_le_0_compat; [exact KP|apply Qlt_le_weak; exact GP]).
  assert (LT : forall a b : Q, (0 <= a)%Q -> (a < b)%Q -> (b * b <= a * a)%Q -> False) by (clear; intros a b A B C; nra).
  destruct (Qceqb (c * c)%Qc x) eqn:E.
  - apply Qceqb_eq in E. assert (EX : (this x == this c * this c)%Q) by (rewrite <- E; apply this_mul). split; intros H; apply binary64_monotone; unfold Qcle in *; rewrite this_mul, EX in H.
    + destruct (Qlt_le_dec (this c) (this s)) as [Q|Q]; auto. exfalso. eapply LT; eauto.
    + destruct (Qlt_le_dec (this s) (this c)) as [Q|Q]; auto. exfalso. eapply LT; [exact S0|exact Q|exact H].
  - assert (NE : (inject_Z k * grid * (inject_Z k * grid) < this x)%Q). { apply Qle_lteq in LO as [LO|LO]; auto. exfalso. assert (E' : (c * c)%Qc = x) by (apply Qc_is_canon; rewrite this_mul, TG; exact LO). apply Qceqb_eq in E'. congruence. }
    assert (CM : cell k (this (c + half_cell)%Qc)). { unfold cell. rewrite this_add, TG, TH, K1. split; nra. }
    split; intros H; unfold Qcle in H; rewrite this_mul in H.
    + destruct (Qlt_le_dec (this (c + half_cell)%Qc) (this s)) as [Q|Q]; [|apply binary64_monotone; exact Q]. rewrite (cell_rnd k s (c + half_cell)%Qc); auto; [apply Qcle_refl|]. split; [eapply Qlt_trans; [apply CM|exact Q]|]. apply square_le; auto; [rewrite K1; nra|]. eapply Qle_lt_trans; eauto.
    + destruct (Qlt_le_dec (this s) (this (c + half_cell)%Qc)) as [Q|Q]; [|apply binary64_monotone; exact Q]. rewrite (cell_rnd k s (c + half_cell)%Qc); auto; [apply Qcle_refl|]. split; [|eapply Qlt_trans; [exact Q|apply CM]]. apply square_le; auto; [nra|]. eapply Qlt_le_trans; eauto.
Qed.
