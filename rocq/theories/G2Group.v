(** G2: the curve over Fq2 (bn256/curve.rs:53-128), and the limb vectors of Fq2,
    Fq6 and Fq12 with the tables of constants. *)
From Coq Require Import List Bool Field_theory Field Ring ZArith Lia.
From Verif Require Import Base Moduli Field FieldFacts LimbModel LimbSpec LimbConst LimbField FieldClaims CurveModel CurveSpec CurveFacts CurveLimbs G1Group G1Code TowerModel TowerSpec TowerFacts PowerFacts TowerFq TowerFrob PairingModel TowerLimbs.
Import ListNotations.
Local Open Scope Z_scope.

(** G2_B curve.rs:85-98, G2_GENERATOR_X :100-113, G2_GENERATOR_Y :115-128: the words
    given to [Fq::from_raw] *)
Definition raw_b2 : ext2 limbs := Ext2 (L4 0x3267e6dc24a138e5 0xb5b4c5e559dbefa3 0x81be18991be06ac3 0x2b149d40ceb8aaae) (L4 0xe4a2bd0685c315d2 0xa74fa084e52d1852 0xcd2cafadeed8fdf4 0x009713b03af0fed4).
Definition raw_x2 : ext2 limbs := Ext2 (L4 0x46debd5cd992f6ed 0x674322d4f75edadd 0x426a00665e5c4479 0x1800deef121f1e76) (L4 0x97e485b7aef312c2 0xf1aa493335a9e712 0x7260bfb731fb5d25 0x198e9393920d483a).
Definition raw_y2 : ext2 limbs := Ext2 (L4 0x4ce6cc0166fa7daa 0xe3d1e7690c43d37b 0x4aab71808dcb408f 0x12c85ea5db8c6deb) (L4 0x55acdadcd122975b 0xbc4b313370b38ef3 0xec9e99ad690c3395 0x090689d0585ff075).
Definition b2 : ext2 Fq := map2 (fun l => FqZ (v4 l)) raw_b2.
Definition x2 : ext2 Fq := map2 (fun l => FqZ (v4 l)) raw_x2.
Definition y2 : ext2 Fq := map2 (fun l => FqZ (v4 l)) raw_y2.
Definition gen2 : point (ext2 Fq) := Point x2 y2.
Notation limb2 := (f2_base limb_base).

(** ** limbs *)
Notation RQ := (@represents q_pos).
Notation R2 := (@rel2 limbs Fq RQ).
Notation R6 := (@rel3 (ext2 limbs) (ext2 Fq) R2).
Notation R12 := (@rel2 (ext3 (ext2 limbs)) (ext3 (ext2 Fq)) R6).
Lemma rinv_ok : (rinv * 2 ^ 256) mod q_modulus = 1. Proof. vm_compute. reflexivity. Qed.
Lemma val_ok l : canonical q_pos l -> represents l (val l).
Proof.
  intros [W L]. split; [exact W|]. unfold val, FqZ. rewrite fval_of_Z, q_pos_eq in *.
  rewrite Zmult_mod_idemp_l, <- Z.mul_assoc, <- Zmult_mod_idemp_r, rinv_ok, Z.mul_1_r. symmetry. apply Z.mod_small.
  split; [|exact L]. pose proof (LimbFacts.v4_range l W). lia.
Qed.
Definition wordb (x : Z) : bool := (0 <=? x) && (x <? 2 ^ 64).
Definition canonb (l : limbs) : bool := wordb (LimbModel.l0 l) && wordb (LimbModel.l1 l) && wordb (LimbModel.l2 l) && wordb (LimbModel.l3 l) && (v4 l <? q_modulus).
Lemma wordb_ok x : wordb x = true -> word x.
Proof. intros H. apply andb_prop in H. destruct H as [A B]. apply Z.leb_le in A. apply Z.ltb_lt in B. exact (conj A B). Qed.
Lemma canonb_ok l : canonb l = true -> represents l (val l).
Proof.
  intros H. apply andb_prop in H. destruct H as [H V]. apply andb_prop in H. destruct H as [H D]. apply andb_prop in H. destruct H as [H C]. apply andb_prop in H. destruct H as [A B].
  apply val_ok. split; [|rewrite q_pos_eq; apply Z.ltb_lt; exact V]. exact (conj (wordb_ok _ A) (conj (wordb_ok _ B) (conj (wordb_ok _ C) (wordb_ok _ D)))).
Qed.
Definition canon2 (x : ext2 limbs) : bool := canonb (e0 x) && canonb (e1 x).
Lemma canon2_ok x : canon2 x = true -> R2 x (map2 val x).
Proof. intros H. apply andb_prop in H. destruct H as [A B]. exact (conj (canonb_ok _ A) (canonb_ok _ B)). Qed.
Lemma table_ok {A B} (f : A -> B) (R : A -> B -> Prop) c l : (forall x, c x = true -> R x (f x)) -> forallb c l = true -> Forall2 R l (map f l).
Proof. intros H. induction l as [|x l IH]; intros E; [constructor|]. cbn [forallb] in E. apply andb_prop in E. destruct E as [E1 E2]. cbn [map]. constructor; [apply H; exact E1|apply IH; exact E2]. Qed.
Lemma tables_follow : trel RQ limb_tables tbl.
Proof.
  constructor; cbn [tbl map_tables t_2 t_6a t_6b t_12 t_half limb_tables].
  - apply (table_ok val RQ canonb); [exact canonb_ok|vm_compute; reflexivity].
  - apply (table_ok (map2 val) R2 canon2); [exact canon2_ok|vm_compute; reflexivity].
  - apply (table_ok (map2 val) R2 canon2); [exact canon2_ok|vm_compute; reflexivity].
  - apply (table_ok (map2 val) R2 canon2); [exact canon2_ok|vm_compute; reflexivity].
  - apply canon2_ok. vm_compute. reflexivity.
Qed.
Lemma neg_one_ok : represents negative_one (val negative_one).
Proof. apply canonb_ok. vm_compute. reflexivity. Qed.
(** the constants made by [from_raw] *)
Definition limb_raw (x : ext2 limbs) : ext2 limbs := map2 (from_raw fq_params) x.
Lemma raw_ok x : canon2 x = true -> R2 (limb_raw x) (map2 (fun l => FqZ (v4 l)) x).
Proof.
  intros H. apply andb_prop in H. destruct H as [A B]. split; cbn [limb_raw map2 e0 e1]; apply (const_rep fq_params q_pos _ _ good_fq); try reflexivity.
  - exact (proj1 (canonb_ok _ A)).
  - exact (proj1 (canonb_ok _ B)).
Qed.
Lemma b2_ok : R2 (limb_raw raw_b2) b2. Proof. apply raw_ok. vm_compute. reflexivity. Qed.
Lemma x2_ok : R2 (limb_raw raw_x2) x2. Proof. apply raw_ok. vm_compute. reflexivity. Qed.
Lemma y2_ok : R2 (limb_raw raw_y2) y2. Proof. apply raw_ok. vm_compute. reflexivity. Qed.

(** ** the curve *)
Lemma i2_two : two K2 = Ext2 (two K1) (bzero K1).
Proof. unfold two. cbn [f2_base badd bone]. unfold f2_add, f2_one. cbn [e0 e1]. apply (f_equal (Ext2 _)). cbn [K1 badd bzero]. qring. Qed.
Lemma i2_three : three K2 = Ext2 (three K1) (bzero K1).
Proof. unfold three. rewrite i2_two. cbn [f2_base badd bone]. unfold f2_add, f2_one. cbn [e0 e1]. apply (f_equal (Ext2 _)). cbn [K1 badd bzero]. qring. Qed.
Lemma b2_nz : b2 <> bzero K2.
Proof. intros E. apply (f_equal (fun x => fval (e1 x))) in E. vm_compute in E. discriminate E. Qed.
Theorem fq2_is_base : is_base K2 b2.
Proof.
  constructor; [exact (fd_field _ fq2_fld)|exact (fd_square _ fq2_fld)|exact (fd_invert _ fq2_fld)|exact (fd_eq _ fq2_fld)| | |exact b2_nz].
  - rewrite i2_two. intros E. exact (base_two _ _ fq_is_base (f_equal e0 E)).
  - rewrite i2_three. intros E. exact (base_three _ _ fq_is_base (f_equal e0 E)).
Qed.
(** the curve is the sextic twist: b = 3 / xi *)
Lemma twist : f2_mul K1 b2 (xi K1) = Ext2 b1 (bzero K1).
Proof. apply f2_eq; vm_compute; reflexivity. Qed.
Theorem gen2_on : on_curve K2 b2 gen2.
Proof. cbn [gen2 on_curve]. apply (fd_eq _ fq2_fld). vm_compute. reflexivity. Qed.
Definition follow2 : follows limb2 K2 R2 := follows2 limb_base K1 RQ limbs_follow.
