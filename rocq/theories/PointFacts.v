(** The compressed and raw encodings of G1 points. *)
From Coq Require Import ZArith Znumtheory Zpow_facts List Lia Bool Ring Field.
From Verif Require Import Base Moduli Field FieldFacts LimbModel LimbSpec LimbFacts LimbField LimbBytes LimbConst
  SerdeModel SerdeSpec SerdeFacts.
Import ListNotations.
Local Open Scope Z_scope.

Add Field Fq_inst : (@fe_field_theory q_pos q_prime).
Notation good_q := good_fq.
Notation three := (of_Z q_pos 3).

Lemma fq_pow_const z k : 0 <= k -> fpow (FqZ z) k = FqZ (Zpow_mod (z mod q_modulus) k q_modulus).
Proof.
  intros Hk. unfold fpow, FqZ. apply of_Z_eq_mod. rewrite fval_of_Z.
  rewrite q_pos_eq. rewrite Zpow_mod_correct by discriminate.
  rewrite Z.mod_mod by discriminate. reflexivity.
Qed.
Lemma fq_power_not z d : 0 < d -> (Zpos q_pos - 1) mod d = 0 ->
  (Zpow_mod (z mod q_modulus) ((Zpos q_pos - 1) / d) q_modulus =? 1) = false ->
  FqZ z <> f0 -> forall x, fpow x d <> FqZ z.
Proof.
  intros Hd D N Z0 x E.
  assert (Hx : x <> f0). { intros ->. rewrite fpow_zero in E by (exact q_prime || lia). congruence. }
  pose proof (fpow_fermat q_pos q_prime x Hx) as F.
  assert (S : Zpos q_pos - 1 = d * ((Zpos q_pos - 1) / d)).
  { pose proof (Z.div_mod (Zpos q_pos - 1) d ltac:(lia)). lia. }
  assert (0 <= (Zpos q_pos - 1) / d) by (apply Z.div_pos; lia).
  rewrite S, <- fpow_mul in F by lia.
  rewrite E, fq_pow_const in F by assumption.
  apply (f_equal fval) in F. unfold FqZ, f1 in F. rewrite !fval_of_Z in F.
  rewrite (Zpow_mod_correct _ _ q_modulus) in F, N by discriminate.
  rewrite q_pos_eq, Z.mod_mod in F by discriminate. change (1 mod q_modulus) with 1 in F.
  rewrite <- q_pos_eq in F, N at 2. rewrite q_pos_eq in F, N. rewrite F in N. discriminate.
Qed.
Lemma fpow2 (x : Fq) : fpow x 2 = (x * x)%F.
Proof. change 2 with (1 + 1). rewrite fpow_add, fpow_1 by lia. reflexivity. Qed.
Lemma fpow3 (x : Fq) : fpow x 3 = (x * x * x)%F.
Proof. change 3 with (1 + 1 + 1). rewrite !fpow_add, fpow_1 by lia. reflexivity. Qed.
Lemma three_nonsquare (y : Fq) : (y * y)%F <> three.
Proof.
  rewrite <- fpow2. apply (fq_power_not 3 2); [lia|reflexivity|vm_compute; reflexivity|].
  intros E. apply (f_equal fval) in E. vm_compute in E. discriminate.
Qed.
Lemma minus3_noncube (x : Fq) : (x * x * x + three)%F <> f0.
Proof.
  intros E. apply (fq_power_not (-3) 3) with (x := x); [lia|reflexivity|vm_compute; reflexivity| |].
  - intros E'. apply (f_equal fval) in E'. vm_compute in E'. discriminate.
  - rewrite fpow3. unfold FqZ. change (-3) with (- (3)). rewrite of_Z_opp.
    transitivity (x * x * x + three - three)%F; [ring|]. rewrite E. ring.
Qed.

(** parity *)
Lemma fq_odd : Z.odd (Zpos q_pos) = true. Proof. reflexivity. Qed.
Lemma fopp_val (y : Fq) : y <> f0 -> fval (- y)%F = Zpos q_pos - fval y.
Proof.
  intros H. pose proof (fval_nz q_pos y H). unfold fopp. rewrite fval_of_Z.
  symmetry. apply Z.mod_unique with (-1); lia.
Qed.
Lemma fopp_odd (y : Fq) : y <> f0 -> Z.odd (fval (- y)%F) = negb (Z.odd (fval y)).
Proof. intros H. rewrite fopp_val, Z.odd_sub, fq_odd by exact H. now destruct (Z.odd (fval y)). Qed.
Lemma is_odd_def P x : is_odd P x = (Z.land (nth 0 (to_repr P x) 0) 1 =? 1).
Proof. reflexivity. Qed.
Lemma sign_bit x (y : Fq) : rep q_pos x y -> Z.land (nth 0 (to_repr fq_params x) 0) 1 = Z.b2z (Z.odd (fval y)).
Proof.
  intros H. pose proof (is_odd_ok fq_params q_pos good_q x y H) as K. rewrite is_odd_def in K.
  rewrite <- K. clear K. generalize (nth 0 (to_repr fq_params x) 0). intros z.
  assert (E : Z.land z 1 = z mod 2) by (change 1 with (Z.ones 1); rewrite Z.land_ones by lia; reflexivity).
  rewrite E. pose proof (Z.mod_pos_bound z 2 ltac:(lia)).
  assert (R : z mod 2 = 0 \/ z mod 2 = 1) by lia. destruct R as [->| ->]; reflexivity.
Qed.

(** the top byte *)
Lemma top_check : forallb (fun l => (Z.lor (Z.of_nat l) 0 =? Z.of_nat l) && (Z.lor (Z.of_nat l) 128 =? Z.of_nat l + 128) &&
   (Z.shiftr (Z.of_nat l) 7 =? 0) && (Z.shiftr (Z.of_nat l + 128) 7 =? 1) &&
   (Z.land (Z.of_nat l) 127 =? Z.of_nat l) && (Z.land (Z.of_nat l + 128) 127 =? Z.of_nat l)) (seq 0 128) = true.
Proof. vm_compute. reflexivity. Qed.
Lemma top_bits l (s : bool) : 0 <= l < 128 ->
  Z.lor l (128 * Z.b2z s) = l + 128 * Z.b2z s /\ Z.shiftr (l + 128 * Z.b2z s) 7 = Z.b2z s /\
  Z.land (l + 128 * Z.b2z s) 127 = l.
Proof.
  intros H. pose proof top_check as K. rewrite forallb_forall in K.
  specialize (K (Z.to_nat l)). rewrite Z2Nat.id in K by lia.
  assert (I : In (Z.to_nat l) (seq 0 128)) by (apply in_seq; lia). specialize (K I).
  rewrite !andb_true_iff, !Z.eqb_eq in K. destruct s; cbn [Z.b2z]; rewrite ?Z.mul_1_r, ?Z.mul_0_r, ?Z.add_0_r; tauto.
Qed.
Lemma byte_split m : byte m -> exists l s, m = l + 128 * Z.b2z s /\ 0 <= l < 128.
Proof.
  unfold byte. intros H. destruct (Z_lt_ge_dec m 128).
  - exists m, false. cbn [Z.b2z]. lia.
  - exists (m - 128), true. cbn [Z.b2z]. lia.
Qed.
Lemma last_split {A} (b : list A) : length b = 32%nat -> exists pre l, b = pre ++ [l] /\ length pre = 31%nat.
Proof.
  intros L. destruct (exists_last (l := b)) as (pre & l & ->); [intros ->; discriminate|].
  exists pre, l. split; [reflexivity|]. rewrite app_length in L. cbn in L. lia.
Qed.
Lemma upd_last {A} (pre : list A) l v : length pre = 31%nat -> upd (pre ++ [l]) 31 v = pre ++ [v].
Proof.
  intros L. rewrite <- L. clear L. induction pre as [|x pre IH]; [reflexivity|]. cbn. f_equal. exact IH.
Qed.
Lemma nth_last {A} (pre : list A) l d : length pre = 31%nat -> nth 31 (pre ++ [l]) d = l.
Proof. intros L. rewrite app_nth2 by lia. rewrite L. reflexivity. Qed.

(** the bytes of a coordinate leave the top two bits free *)
Lemma x_bytes x (a : Fq) : rep q_pos x a -> exists pre l, to_repr fq_params x = pre ++ [l] /\ length pre = 31%nat /\
  0 <= l < 128 /\ Forall byte pre.
Proof.
  intros H. destruct (to_repr_ok fq_params q_pos good_q x a H) as (L & F & V).
  destruct (last_split _ L) as (pre & l & E & Lp). exists pre, l. split; [exact E|]. split; [exact Lp|].
  rewrite E in F, V. apply Forall_app in F as [F1 F2]. apply Forall_cons_iff in F2 as [F2 _].
  split; [|exact F1]. rewrite le_int_app, Lp in V. cbn [le_int] in V.
  pose proof (le_int_range _ F1) as R. rewrite Lp in R. pose proof (fval_range a) as Ra.
  assert (Q : Zpos q_pos < 128 * 256 ^ Z.of_nat 31) by reflexivity. unfold byte in F2.
  set (M := 256 ^ Z.of_nat 31) in *. assert (0 < M) by reflexivity. nia.
Qed.

Lemma b_rep : rep q_pos g1_b three.
Proof.
  unfold g1_b. change 3 with (v4 (L4 3 0 0 0)) at 2. apply (from_raw_rep fq_params q_pos good_q).
  repeat split; vm_compute; reflexivity || discriminate.
Qed.
Lemma rep_lzero x (a : Fq) : rep q_pos x a -> leqb x lzero = feqb a f0.
Proof. intros H. apply (leqb_rep fq_params q_pos good_q _ _ _ _ H). apply (lzero_rep fq_params q_pos good_q). Qed.

Lemma rhs_rep x (a : Fq) : rep q_pos x a ->
  rep q_pos (ladd fq_params (lmul fq_params (lsquare fq_params x) x) g1_b) (a * a * a + three)%F.
Proof.
  intros H. apply (ladd_rep fq_params q_pos good_q); [|apply b_rep].
  apply (lmul_rep fq_params q_pos good_q); [|exact H]. apply (lsquare_rep fq_params q_pos good_q), H.
Qed.

(** the curve test *)
Lemma is_on_curve_ok g (x y : Fq) : rep q_pos (g1_x g) x -> rep q_pos (g1_y g) y ->
  (is_on_curve g = true <-> (x = f0 /\ y = f0) \/ (y * y = x * x * x + three)%F).
Proof.
  intros Hx Hy. unfold is_on_curve, is_identity.
  rewrite (rep_lzero _ _ Hx), (rep_lzero _ _ Hy).
  rewrite (leqb_rep fq_params q_pos good_q _ _ (y * y - x * x * x)%F three).
  - rewrite orb_true_iff, andb_true_iff, !feqb_eq. split.
    + intros [E|E]; [right|left; exact E].
      transitivity (y * y - x * x * x + x * x * x)%F; [ring|]. rewrite E. ring.
    + intros [E|E]; [right; exact E|left]. rewrite E. ring.
  - apply (lsub_rep fq_params q_pos good_q); [apply (lsquare_rep fq_params q_pos good_q), Hy|].
    apply (lmul_rep fq_params q_pos good_q); [|exact Hx]. apply (lsquare_rep fq_params q_pos good_q), Hx.
  - apply b_rep.
Qed.

Local Opaque to_repr from_repr fq_sqrt lmul ladd lsquare lneg g1_b repeat leqb lzero.

(** the encoding of a finite point *)
Lemma to_bytes_finite g (x y : Fq) pre l : rep q_pos (g1_x g) x -> rep q_pos (g1_y g) y ->
  ~ (x = f0 /\ y = f0) -> to_repr fq_params (g1_x g) = pre ++ [l] -> length pre = 31%nat -> 0 <= l < 128 ->
  g1_to_bytes g = pre ++ [l + 128 * Z.b2z (Z.odd (fval y))].
Proof.
  intros Hx Hy N E L R. unfold g1_to_bytes, is_identity.
  rewrite (rep_lzero _ _ Hx), (rep_lzero _ _ Hy).
  destruct (feqb_spec x f0) as [Ex|Ex], (feqb_spec y f0) as [Ey|Ey]; cbn [andb]; try tauto;
  cbv zeta; rewrite (sign_bit _ _ Hy), E, upd_last, nth_last by exact L;
  destruct (top_bits l (Z.odd (fval y)) R) as (T & _);
  (replace (Z.land (Z.shiftl (Z.b2z (Z.odd (fval y))) 7) 255) with (128 * Z.b2z (Z.odd (fval y)))
    by (destruct (Z.odd (fval y)); reflexivity)); rewrite T; reflexivity.
Qed.

Lemma repeat_lzero : to_repr fq_params lzero = repeat 0 32.
Proof. vm_compute. reflexivity. Qed.

Theorem g1_round g (x y : Fq) : g1_point g x y -> g1_from_bytes (g1_to_bytes g) = Some g.
Proof.
  intros (Hx & Hy & C). apply (rep_iff q_pos) in Hx. apply (rep_iff q_pos) in Hy.
  destruct (fe_dec x f0) as [Ex|Ex]; [destruct (fe_dec y f0) as [Ey|Ey]|].
  - (* infinity *)
    assert (g = g1_identity).
    { destruct g as [gx gy]; cbn [g1_x g1_y] in *. unfold g1_identity.
      f_equal; eapply (rep_inj q_pos); try eassumption; subst; apply (lzero_rep fq_params q_pos good_q). }
    subst g. vm_compute. reflexivity.
  - exfalso. destruct C as [[_ C]|C]; [contradiction|]. apply (three_nonsquare y). rewrite C, Ex. ring.
  - destruct C as [[C _]|C]; [contradiction|].
    destruct (x_bytes _ _ Hx) as (pre & l & E & L & R & F).
    rewrite (to_bytes_finite g x y pre l Hx Hy ltac:(tauto) E L R).
    destruct (top_bits l (Z.odd (fval y)) R) as (_ & T1 & T2).
    unfold g1_from_bytes. rewrite nth_last, upd_last, T1, T2 by exact L. cbv zeta.
    rewrite <- E, (to_from fq_params q_pos good_q _ _ Hx).
    rewrite (rep_lzero _ _ Hx). destruct (feqb_spec x f0) as [?|_]; [contradiction|]. cbn [andb].
    pose proof (fq_sqrt_rep _ _ (rhs_rep _ _ Hx)) as K.
    destruct (fq_sqrt _) as [y0|]; [|exfalso; apply K; exists y; exact C].
    destruct K as (b & Hb & Sb). rewrite (sign_bit _ _ Hb).
    assert (Eb : b = y \/ b = (- y)%F).
    { assert (P : ((b - y) * (b + y))%F = f0).
      { transitivity (b * b - y * y)%F; [ring|]. rewrite Sb, C. ring. }
      apply (fmul_eq_0 q_prime) in P. destruct P as [P|P]; [left|right].
      - transitivity (b - y + y)%F; [ring|]. rewrite P. ring.
      - transitivity (b + y - y)%F; [ring|]. rewrite P. ring. }
    f_equal. destruct g as [gx gy]; cbn [g1_x g1_y] in *. f_equal.
    destruct Eb as [->| ->].
    + rewrite Z.eqb_refl. cbn [negb]. eapply (rep_inj q_pos); eassumption.
    + destruct (fe_dec y f0) as [Y0|Y0].
      * exfalso. apply (minus3_noncube x). rewrite <- C, Y0. ring.
      * rewrite (fopp_odd y Y0).
        replace (negb (Z.b2z (Z.odd (fval y)) =? Z.b2z (negb (Z.odd (fval y))))) with true
          by (destruct (Z.odd (fval y)); reflexivity).
        eapply (rep_inj q_pos); [|exact Hy].
        replace y with (- - y)%F at 1 by ring. apply (lneg_rep fq_params q_pos good_q), Hb.
Qed.

Theorem g1_decode_sound b g : Forall byte b -> length b = 32%nat -> g1_from_bytes b = Some g ->
  exists x y, g1_point g x y /\ g1_to_bytes g = b.
Proof.
  intros F L E. destruct (last_split _ L) as (pre & m & -> & Lp).
  apply Forall_app in F as [F1 F2]. apply Forall_cons_iff in F2 as [F2 _].
  destruct (byte_split m F2) as (l & s & -> & R). destruct (top_bits l s R) as (_ & T1 & T2).
  unfold g1_from_bytes in E. rewrite nth_last, upd_last, T1, T2 in E by exact Lp. cbv zeta in E.
  assert (F' : Forall byte (pre ++ [l])).
  { apply Forall_app. split; [exact F1|]. repeat constructor; lia. }
  assert (L' : length (pre ++ [l]) = 32%nat) by (rewrite app_length; cbn; lia).
  pose proof (from_repr_ok fq_params q_pos good_q _ F' L') as K.
  pose proof (from_to fq_params q_pos good_q (pre ++ [l])) as TR.
  destruct (from_repr fq_params (pre ++ [l])) as [gx|]; [|discriminate].
  destruct K as (_ & Hx). specialize (TR gx F' L' eq_refl). set (x := of_Z q_pos (le_int (pre ++ [l]))) in *.
  rewrite (rep_lzero _ _ Hx) in E.
  destruct (feqb_spec x f0) as [Ex|Ex]; [destruct s|]; cbn [andb Z.b2z Z.eqb] in E.
  - (* zero abscissa with the sign bit set: 3 is not a square *)
    exfalso. pose proof (fq_sqrt_rep _ _ (rhs_rep _ _ Hx)) as K. destruct (fq_sqrt _); [|discriminate].
    destruct K as (c & _ & C). apply (three_nonsquare c). rewrite C, Ex. ring.
  - injection E as <-. exists f0, f0. split.
    + split; [|split; [|left; split; reflexivity]]; apply (rep_iff q_pos), (lzero_rep fq_params q_pos good_q).
    + assert (gx = lzero).
      { eapply (rep_inj q_pos); [exact Hx|]. rewrite Ex. apply (lzero_rep fq_params q_pos good_q). }
      subst gx. rewrite repeat_lzero in TR. rewrite Z.mul_0_r, Z.add_0_r, <- TR. reflexivity.
  - pose proof (fq_sqrt_rep _ _ (rhs_rep _ _ Hx)) as K. destruct (fq_sqrt _) as [y0|]; [|discriminate].
    destruct K as (c & Hc & C). rewrite (sign_bit _ _ Hc) in E.
    assert (Nc : c <> f0). { intros Z0. apply (minus3_noncube x). rewrite <- C, Z0. ring. }
    injection E as <-.
    set (yy := if negb (Z.b2z s =? Z.b2z (Z.odd (fval c))) then lneg fq_params y0 else y0).
    assert (Y : exists y, rep q_pos yy y /\ Z.odd (fval y) = s /\ (y * y = x * x * x + three)%F).
    { unfold yy. destruct s, (Z.odd (fval c)) eqn:O; cbn [Z.b2z Z.eqb negb];
        first [exists c; split; [exact Hc|split; [exact O|exact C]]
              |exists (- c)%F; split; [apply (lneg_rep fq_params q_pos good_q), Hc|split;
                 [rewrite fopp_odd by exact Nc; rewrite O; reflexivity|rewrite <- C; ring]]]. }
    destruct Y as (y & Hy & Oy & Cy). exists x, y. split.
    + split; [apply (rep_iff q_pos), Hx|]. split; [apply (rep_iff q_pos), Hy|right; exact Cy].
    + rewrite (to_bytes_finite (G1 gx yy) x y pre l); cbn [g1_x g1_y]; try assumption; [rewrite Oy; reflexivity|].
      intros [Z0 _]. exact (Ex Z0).
Qed.

Lemma to_bytes_length g (x y : Fq) : rep q_pos (g1_x g) x -> rep q_pos (g1_y g) y -> length (g1_to_bytes g) = 32%nat.
Proof.
  intros Hx Hy. destruct (x_bytes _ _ Hx) as (pre & l & E & L & R & F).
  destruct (fe_dec x f0) as [Ex|Ex]; [destruct (fe_dec y f0) as [Ey|Ey]|].
  - unfold g1_to_bytes, is_identity. rewrite (rep_lzero _ _ Hx), (rep_lzero _ _ Hy), Ex, Ey.
    rewrite feqb_refl. cbn [andb]. apply repeat_length.
  - rewrite (to_bytes_finite g x y pre l) by (try assumption; tauto). rewrite app_length, L. reflexivity.
  - rewrite (to_bytes_finite g x y pre l) by (try assumption; tauto). rewrite app_length, L. reflexivity.
Qed.

(** reading what was written *)
Lemma reads_g1_raw g : g1_coords g -> reads g1_read_raw (g1_write_raw g) g.
Proof.
  intros (A & B). unfold g1_read_raw, g1_write_raw. destruct g as [x y]; cbn [g1_x g1_y] in *.
  eapply reads_bind; [apply (reads_raw fq_params q_pos good_q), A|].
  apply (reads_map (read_raw fq_params) (G1 x)), (reads_raw fq_params q_pos good_q), B.
Qed.
Lemma rejects_g1_raw g : g1_coords g -> rejects g1_read_raw (g1_write_raw g).
Proof.
  intros (A & B). unfold g1_read_raw, g1_write_raw.
  eapply rejects_bind; [apply (reads_raw fq_params q_pos good_q), A|apply (rejects_raw fq_params q_pos), A|].
  apply rejects_map, (rejects_raw fq_params q_pos), B.
Qed.
Lemma reads_fq2 a : fq_pair a -> reads fq2_read_raw (fq2_write_raw a) a.
Proof.
  intros (A & B). unfold fq2_read_raw, fq2_write_raw. destruct a as [x y]; cbn [c0 c1] in *.
  eapply reads_bind; [apply (reads_raw fq_params q_pos good_q), A|].
  apply (reads_map (read_raw fq_params) (Fq2 x)), (reads_raw fq_params q_pos good_q), B.
Qed.
Lemma rejects_fq2 a : fq_pair a -> rejects fq2_read_raw (fq2_write_raw a).
Proof.
  intros (A & B). unfold fq2_read_raw, fq2_write_raw.
  eapply rejects_bind; [apply (reads_raw fq_params q_pos good_q), A|apply (rejects_raw fq_params q_pos), A|].
  apply rejects_map, (rejects_raw fq_params q_pos), B.
Qed.
Lemma reads_g2 a : g2_coords a -> reads g2_read_raw (g2_write_raw a) a.
Proof.
  intros (A & B). unfold g2_read_raw, g2_write_raw. destruct a as [x y]; cbn [g2_x g2_y] in *.
  eapply reads_bind; [apply reads_fq2, A|]. apply (reads_map fq2_read_raw (G2 x)), reads_fq2, B.
Qed.
Lemma rejects_g2 a : g2_coords a -> rejects g2_read_raw (g2_write_raw a).
Proof.
  intros (A & B). unfold g2_read_raw, g2_write_raw.
  eapply rejects_bind; [apply reads_fq2, A|apply rejects_fq2, A|]. apply rejects_map, rejects_fq2, B.
Qed.
Lemma reads_g1 f g (x y : Fq) : g1_point g x y -> reads (read_g1 f) (write_g1 f g) g.
Proof.
  intros H. pose proof H as (Hx & Hy & _). apply (rep_iff q_pos) in Hx. apply (rep_iff q_pos) in Hy.
  assert (Cx : canonical q_pos (g1_x g)) by (split; [apply Hx|pose proof (rep_val q_pos _ _ Hx); lia]).
  assert (Cy : canonical q_pos (g1_y g)) by (split; [apply Hy|pose proof (rep_val q_pos _ _ Hy); lia]).
  destruct f; cbn [read_g1 write_g1].
  - intros rest. unfold ibind. rewrite (reads_exact_n 32 _ (to_bytes_length g x y Hx Hy) rest).
    rewrite (g1_round g x y H). reflexivity.
  - apply reads_g1_raw. split; assumption.
  - unfold g1_read_raw_unchecked, g1_write_raw. destruct g as [gx gy]; cbn [g1_x g1_y] in *.
    eapply reads_bind; [apply reads_raw_unchecked, Cx|].
    apply (reads_map read_raw_unchecked (G1 gx)), reads_raw_unchecked, Cy.
Qed.

Lemma reads_repeat {A} (r : reader A) (w : A -> list Z) l : (forall x, In x l -> reads r (w x) x) ->
  reads (irepeat (length l) r) (flat_map w l) l.
Proof.
  induction l as [|x l IH]; intros H; cbn [irepeat flat_map length]; [apply reads_ret|].
  eapply reads_bind; [apply H; left; reflexivity|].
  apply (reads_map (irepeat (length l) r) (cons x)), IH. intros. apply H. right. assumption.
Qed.
Lemma rejects_repeat {A} (r : reader A) (w : A -> list Z) l :
  (forall x, In x l -> reads r (w x) x /\ rejects r (w x)) -> rejects (irepeat (length l) r) (flat_map w l).
Proof.
  induction l as [|x l IH]; intros H; cbn [irepeat flat_map length]; [intros t T; destruct (trunc_nil _ T)|].
  destruct (H x (or_introl eq_refl)) as [R J].
  eapply rejects_bind; [exact R|exact J|]. apply rejects_map, IH. intros. apply H. right. assumption.
Qed.

(** ** what the checked raw reader guarantees *)
Lemma le_value_range b : Forall byte b -> 0 <= le_value b < 256 ^ Z.of_nat (length b).
Proof.
  induction 1 as [|x b H F IH]; [cbn; lia|].
  cbn [le_value length]. rewrite Nat2Z.inj_succ, Z.pow_succ_r by lia. unfold byte in H. lia.
Qed.
Lemma limb_word b v rest : Forall byte b -> read_limb b = IOk v rest -> word v /\ Forall byte rest.
Proof.
  intros F. unfold read_limb, ibind, read_exact. destruct (Nat.ltb_spec (length b) 8) as [L|L]; [discriminate|].
  intros H. injection H as <- <-. rewrite <- (firstn_skipn 8 b) in F. apply Forall_app in F as [F1 F2]. split; [|exact F2].
  pose proof (le_value_range _ F1) as R. rewrite firstn_length in R. replace (Nat.min 8 (length b)) with 8%nat in R by lia.
  exact R.
Qed.
Lemma raw_canonical P p (G : good P p) b x rest : Forall byte b -> read_raw P b = IOk x rest -> canonical p x /\ Forall byte rest.
Proof.
  intros F. unfold read_raw. unfold ibind at 1. destruct (read_limb b) as [a b1| |] eqn:E1; try discriminate.
  destruct (limb_word _ _ _ F E1) as [W1 F1]. unfold ibind at 1. destruct (read_limb b1) as [c b2| |] eqn:E2; try discriminate.
  destruct (limb_word _ _ _ F1 E2) as [W2 F2]. unfold ibind at 1. destruct (read_limb b2) as [d b3| |] eqn:E3; try discriminate.
  destruct (limb_word _ _ _ F2 E3) as [W3 F3]. unfold ibind at 1. destruct (read_limb b3) as [e b4| |] eqn:E4; try discriminate.
  destruct (limb_word _ _ _ F3 E4) as [W4 F4]. cbv zeta.
  assert (W : words4 (L4 a c d e)) by (repeat split; apply W1 || apply W2 || apply W3 || apply W4).
  rewrite is_less_than_spec by (try exact W; apply (g_words _ _ G)). rewrite (g_val _ _ G).
  destruct (Z.ltb_spec (v4 (L4 a c d e)) (Zpos p)) as [L|L]; [|discriminate]. intros H. injection H as <- <-.
  split; [split; [exact W|exact L]|exact F4].
Qed.
Theorem read_raw_canonical b g rest : Forall byte b -> read_g1 RawBytes b = IOk g rest -> g1_coords g.
Proof.
  intros F. cbn [read_g1]. unfold g1_read_raw. unfold ibind at 1. destruct (read_raw fq_params b) as [x b1| |] eqn:E1; try discriminate.
  destruct (raw_canonical _ _ good_q _ _ _ F E1) as [C1 F1]. unfold ibind at 1.
  destruct (read_raw fq_params b1) as [y b2| |] eqn:E2; try discriminate.
  destruct (raw_canonical _ _ good_q _ _ _ F1 E2) as [C2 F2]. intros H. injection H as <- <-. split; assumption.
Qed.
