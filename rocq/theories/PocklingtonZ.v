(** Fermat's little theorem and Pocklington's primality criterion over Z, with a
    boolean checker.  Proof tool for the constants in halo2curves/src/bn256/fr.rs
    and fq.rs; models no Rust code. *)
From Coq Require Import ZArith Znumtheory Zpow_facts List Lia Bool Permutation.
Import ListNotations.
Local Open Scope Z_scope.

(** * Fermat's little theorem *)
Definition zprod (l : list Z) : Z := fold_right Z.mul 1 l.

Lemma zprod_perm l l' : Permutation l l' -> zprod l = zprod l'.
Proof.
  unfold zprod. induction 1; cbn [fold_right]; [reflexivity|congruence|ring|congruence].
Qed.

Lemma zprod_map_mod a p l : 0 < p ->
  zprod (map (fun x => (a * x) mod p) l) mod p = (a ^ Z.of_nat (length l) * zprod l) mod p.
Proof.
  intros Hp. induction l as [|x l IH]; [reflexivity|].
  cbn [map zprod fold_right length]. fold (zprod l).
  fold (zprod (map (fun x => (a * x) mod p) l)).
  rewrite Z.mul_mod_idemp_l by lia.
  rewrite <- Z.mul_mod_idemp_r, IH, Z.mul_mod_idemp_r by lia.
  rewrite Nat2Z.inj_succ, Z.pow_succ_r by lia. f_equal. ring.
Qed.

Lemma zprod_rel p l : prime p -> (forall x, In x l -> 0 < x < p) -> ~ (p | zprod l).
Proof.
  intros Hp. induction l as [|x l IH]; intros H D; cbn [zprod fold_right] in D.
  - apply Z.divide_1_r_nonneg in D; pose proof (prime_ge_2 _ Hp); lia.
  - apply prime_mult in D; [|exact Hp]. destruct D as [D|D].
    + specialize (H x (or_introl eq_refl)). apply Z.divide_pos_le in D; lia.
    + apply IH; [|exact D]. intros y Hy. apply H. right. exact Hy.
Qed.

Lemma fermat (p a : Z) : prime p -> 0 < a < p -> a ^ (p - 1) mod p = 1.
Proof.
  intros Hp Ha. pose proof (prime_ge_2 _ Hp) as Hp2.
  set (L := map Z.of_nat (seq 1 (Z.to_nat (p - 1)))).
  assert (HL : forall x, In x L <-> 0 < x < p).
  { intros x. unfold L. rewrite in_map_iff. split.
    - intros [n [<- Hn]]. apply in_seq in Hn. lia.
    - intros Hx. exists (Z.to_nat x). rewrite in_seq. lia. }
  assert (ND : NoDup L).
  { apply FinFun.Injective_map_NoDup; [intros x y; apply Nat2Z.inj|apply seq_NoDup]. }
  assert (Na : ~ (p | a)) by (intros D; apply Z.divide_pos_le in D; lia).
  assert (P : Permutation (map (fun x => (a * x) mod p) L) L).
  { apply NoDup_Permutation_bis.
    - assert (Inj : forall l, (forall x, In x l -> 0 < x < p) -> NoDup l ->
        NoDup (map (fun x => (a * x) mod p) l)).
      { intros l. induction l as [|x l IH]; intros Hl Hn; [constructor|].
        inversion Hn as [|? ? Hnin Hn']; subst. cbn [map]. constructor.
        - rewrite in_map_iff. intros [y [E Hy]]. apply Hnin.
          assert (D : (p | a * (y - x))).
          { apply Z.mod_divide; [lia|]. rewrite Z.mul_sub_distr_l, Zminus_mod, E, Z.sub_diag.
            reflexivity. }
          apply prime_mult in D; [|exact Hp]. destruct D as [D|D]; [contradiction|].
          pose proof (Hl x (or_introl eq_refl)). pose proof (Hl y (or_intror Hy)).
          destruct (Z.eq_dec y x) as [->|Ne]; [exact Hy|]. exfalso.
          destruct D as [k Hk]. assert (k <> 0) by nia. nia.
        - apply IH; [|exact Hn']. intros y Hy. apply Hl. right. exact Hy. }
      apply Inj; [intros x; apply HL|exact ND].
    - rewrite map_length. lia.
    - intros y Hy. apply in_map_iff in Hy. destruct Hy as [x [<- Hx]]. apply HL in Hx.
      apply HL. pose proof (Z.mod_pos_bound (a * x) p ltac:(lia)).
      destruct (Z.eq_dec ((a * x) mod p) 0) as [E|E]; [|lia].
      apply Z.mod_divide in E; [|lia]. apply prime_mult in E; [|exact Hp].
      destruct E as [D|D]; [contradiction|]. apply Z.divide_pos_le in D; lia. }
  pose proof (zprod_map_mod a p L ltac:(lia)) as E.
  rewrite (zprod_perm _ _ P) in E.
  replace (Z.of_nat (length L)) with (p - 1) in E
    by (unfold L; rewrite map_length, seq_length; lia).
  assert (D : (p | zprod L * (a ^ (p - 1) - 1))).
  { apply Z.mod_divide; [lia|]. rewrite Z.mul_sub_distr_l, Z.mul_1_r, Zminus_mod.
    rewrite (Z.mul_comm (zprod L)), <- E, Z.sub_diag. reflexivity. }
  apply prime_mult in D; [|exact Hp]. destruct D as [D|D].
  - exfalso. revert D. apply zprod_rel; [exact Hp|]. intros x. apply HL.
  - destruct D as [k Hk]. replace (a ^ (p - 1)) with (1 + k * p) by lia.
    rewrite Z.mod_add by lia. apply Z.mod_small. lia.
Qed.

Lemma fermat_gen (p a : Z) : prime p -> ~ (p | a) -> a ^ (p - 1) mod p = 1.
Proof.
  intros Hp Na. pose proof (prime_ge_2 _ Hp) as Hp2.
  rewrite Zpower_mod by lia.
  apply fermat; [exact Hp|].
  pose proof (Z.mod_pos_bound a p ltac:(lia)).
  destruct (Z.eq_dec (a mod p) 0) as [E|E]; [|lia].
  apply Z.mod_divide in E; [contradiction|lia].
Qed.

(** * Pocklington's criterion *)

(** A certificate entry (q, e, a): prime factor q of N - 1 (the exponent e is
    always 1) and witness a. *)
Definition check1 (N : Z) (c : Z * Z * Z) : bool :=
  let '(q, e, a) := c in
  let m := (N - 1) / q in
  let b := Zpow_mod a m N in
  (e =? 1) && (0 <? a) && (N - 1 =? q * m) &&
  (Zpow_mod b q N =? 1) &&
  (Z.gcd (b - 1) N =? 1).

Fixpoint nodupb (l : list Z) : bool :=
  match l with
  | [] => true
  | x :: l' => negb (existsb (Z.eqb x) l') && nodupb l'
  end.

Definition cprod (fs : list (Z * Z * Z)) : Z :=
  fold_right (fun c acc => fst (fst c) * acc) 1 fs.

Definition check (N : Z) (fs : list (Z * Z * Z)) : bool :=
  (1 <? N) && forallb (check1 N) fs && nodupb (map (fun c => fst (fst c)) fs) &&
  (N <? cprod fs * cprod fs).

Lemma pow_one_mod b l k n : 0 < l -> 0 <= k -> 0 <= n -> b ^ k mod l = 1 mod l ->
  b ^ (k * n) mod l = 1 mod l.
Proof.
  intros Hl Hk Hn H. rewrite Z.pow_mul_r, Zpower_mod, H by lia.
  rewrite <- Zpower_mod, Z.pow_1_l by lia. reflexivity.
Qed.

Lemma mod_of_divisor x N l : 0 < N -> 0 < l -> (l | N) -> (x mod N) mod l = x mod l.
Proof.
  intros HN Hl [t Ht]. rewrite (Z.mod_eq x N) by lia.
  generalize (x / N). intros y. subst N.
  replace (x - t * l * y) with (x + (- (t * y)) * l) by ring. apply Z.mod_add. lia.
Qed.

Lemma pock_step N l q a m : prime l -> (l | N) -> prime q -> 0 < a -> 1 < N ->
  N - 1 = q * m -> a ^ (N - 1) mod N = 1 -> Z.gcd (a ^ m mod N - 1) N = 1 -> (q | l - 1).
Proof.
  intros Pl Dl Pq Ha HN Em Hp Hg.
  pose proof (prime_ge_2 _ Pl) as Hl. pose proof (prime_ge_2 _ Pq) as Hq.
  assert (Hm : 0 < m) by nia.
  destruct (Zdivide_dec q (l - 1)) as [D|ND]; [exact D|exfalso].
  set (b := a ^ m).
  assert (Hb : b ^ q mod l = 1 mod l).
  { unfold b. rewrite <- Z.pow_mul_r, (Z.mul_comm m q), <- Em by lia.
    transitivity ((a ^ (N - 1) mod N) mod l); [|rewrite Hp; reflexivity].
    symmetry. apply mod_of_divisor; [lia|lia|exact Dl]. }
  assert (Nb : ~ (l | b)).
  { intros [t Ht]. rewrite Ht in Hb.
    replace q with (Z.succ (q - 1)) in Hb by lia. rewrite Z.pow_succ_r in Hb by lia.
    replace (t * l * (t * l) ^ (q - 1)) with (t * (t * l) ^ (q - 1) * l) in Hb by ring.
    rewrite Z.mod_mul, Z.mod_small in Hb by lia. lia. }
  pose proof (fermat_gen l b Pl Nb) as Hf.
  assert (H1l : 1 mod l = 1) by (apply Z.mod_small; lia).
  rewrite <- H1l in Hf at 2.
  pose proof (prime_rel_prime _ Pq _ ND) as RP.
  apply rel_prime_bezout in RP. destruct RP as [u v Huv].
  set (u' := u mod (l - 1) + (l - 1)).
  assert (Hu' : 1 <= u') by (unfold u'; pose proof (Z.mod_pos_bound u (l - 1) ltac:(lia)); lia).
  assert (Ek : exists k, 0 <= k /\ q * u' = 1 + (l - 1) * k).
  { exists (1 * q - q * (u / (l - 1)) - v). 
    assert (E : q * u' = 1 + (l - 1) * (1 * q - q * (u / (l - 1)) - v)).
    { unfold u'. rewrite Z.mod_eq by lia. generalize (u / (l - 1)). intros d. lia. }
    split; [nia|exact E]. }
  destruct Ek as [k [Hk Ek]].
  pose proof (pow_one_mod b l q u' ltac:(lia) ltac:(lia) ltac:(lia) Hb) as H1.
  rewrite Ek in H1.
  pose proof (pow_one_mod b l (l - 1) k ltac:(lia) ltac:(lia) ltac:(lia) Hf) as H2.
  rewrite Z.pow_add_r, Z.pow_1_r in H1 by nia.
  rewrite <- Z.mul_mod_idemp_r, H2, Z.mul_mod_idemp_r, Z.mul_1_r in H1 by lia.
  assert (D : (l | a ^ m mod N - 1)).
  { fold b. apply Z.mod_divide; [lia|].
    rewrite Zminus_mod, mod_of_divisor, H1, Z.sub_diag by (assumption || lia). reflexivity. }
  pose proof (Z.gcd_greatest _ _ _ D Dl) as G. rewrite Hg in G.
  apply Z.divide_1_r_nonneg in G; lia.
Qed.

Lemma cprod_divides M fs : Forall (fun c => prime (fst (fst c))) fs ->
  nodupb (map (fun c => fst (fst c)) fs) = true ->
  Forall (fun c => (fst (fst c) | M)) fs -> (cprod fs | M).
Proof.
  induction fs as [|c fs IH]; intros HP HN HD; cbn [cprod fold_right].
  - apply Z.divide_1_l.
  - cbn [map nodupb] in HN. apply andb_true_iff in HN. destruct HN as [Hn HN].
    apply negb_true_iff in Hn.
    apply Forall_cons_iff in HP, HD. destruct HP as [Pc HP], HD as [Dc HD].
    fold (cprod fs). specialize (IH HP HN HD).
    destruct IH as [t Ht]. rewrite Ht in Dc |- *.
    assert (R : rel_prime (fst (fst c)) (cprod fs)).
    { clear - Pc HP Hn. induction fs as [|d fs IH]; cbn [cprod fold_right].
      - apply rel_prime_1 || apply rel_prime_sym, rel_prime_1.
      - cbn [map existsb] in Hn. apply orb_false_iff in Hn. destruct Hn as [Hd Hn].
        apply Forall_cons_iff in HP. destruct HP as [Pd HP].
        apply rel_prime_mult.
        + apply prime_rel_prime; [exact Pc|]. intros D.
          apply (prime_div_prime _ _ Pc Pd) in D. apply Z.eqb_neq in Hd. contradiction.
        + apply IH; assumption. }
    rewrite Z.mul_comm in Dc. apply Gauss in Dc; [|exact R].
    destruct Dc as [s ->]. exists s. ring.
Qed.

Lemma has_prime_divisor : forall n, 1 < n -> exists l, prime l /\ (l | n).
Proof.
  intros n. assert (0 <= n \/ n < 0) by lia. destruct H as [H|H]; [|lia].
  revert n H. apply (Z_lt_induction (fun n => 1 < n -> exists l, prime l /\ (l | n))).
  intros n IH Hn. destruct (prime_dec n) as [P|NP].
  - exists n. split; [exact P|apply Z.divide_refl].
  - destruct (not_prime_divide _ Hn NP) as [d [Hd D]].
    destruct (IH d ltac:(lia) ltac:(lia)) as [l [Pl Dl]].
    exists l. split; [exact Pl|]. apply Z.divide_trans with d; assumption.
Qed.

Lemma small_prime_divisor n : 1 < n -> ~ prime n -> exists l, prime l /\ (l | n) /\ l * l <= n.
Proof.
  intros Hn NP. destruct (not_prime_divide _ Hn NP) as [d [Hd [e He]]].
  assert (He0 : 0 < e) by nia. assert (He2 : e <> 1) by (intros ->; lia).
  assert (He3 : e < e * d) by (rewrite <- (Z.mul_1_r e) at 1; apply Z.mul_lt_mono_pos_l; lia).
  assert (He1 : 1 < e < n) by lia.
  destruct (Z_le_gt_dec d e) as [L|G].
  - destruct (has_prime_divisor d ltac:(lia)) as [l [Pl Dl]]. exists l.
    pose proof (Z.divide_pos_le l d ltac:(lia) Dl). pose proof (prime_ge_2 _ Pl).
    split; [exact Pl|split]; [rewrite He; apply Z.divide_mul_r; exact Dl|nia].
  - destruct (has_prime_divisor e ltac:(lia)) as [l [Pl Dl]]. exists l.
    pose proof (Z.divide_pos_le l e ltac:(lia) Dl). pose proof (prime_ge_2 _ Pl).
    split; [exact Pl|split]; [rewrite He; apply Z.divide_mul_l; exact Dl|nia].
Qed.

Lemma cprod_pos fs : Forall (fun c => prime (fst (fst c))) fs -> 0 < cprod fs.
Proof.
  induction 1 as [|c fs P _ IH]; cbn [cprod fold_right]; [lia|].
  apply prime_ge_2 in P. fold (cprod fs). nia.
Qed.

Lemma pocklington N fs :
  check N fs = true -> Forall (fun c => prime (fst (fst c))) fs -> prime N.
Proof.
  intros H Hpr. unfold check in H. repeat rewrite andb_true_iff in H.
  destruct H as [[[HN Hc] Hnd] Hlt].
  rewrite Z.ltb_lt in HN, Hlt.
  destruct (prime_dec N) as [P|NP]; [exact P|exfalso].
  destruct (small_prime_divisor N HN NP) as [l [Pl [Dl Hl]]].
  pose proof (prime_ge_2 _ Pl) as Hl2.
  assert (D : (cprod fs | l - 1)).
  { apply cprod_divides; [exact Hpr|exact Hnd|].
    apply Forall_forall. intros [[q e] a] Hin. cbn [fst].
    rewrite Forall_forall in Hpr. specialize (Hpr _ Hin). cbn [fst] in Hpr.
    rewrite forallb_forall in Hc. specialize (Hc _ Hin). unfold check1 in Hc.
    repeat rewrite andb_true_iff in Hc. destruct Hc as [[[[He Ha] Hm] Hp] Hg].
    rewrite Z.ltb_lt in Ha. rewrite Z.eqb_eq in Hm, Hp, Hg.
    pose proof (prime_ge_2 _ Hpr) as Hq2.
    assert (Hm0 : 0 <= (N - 1) / q) by (apply Z.div_pos; lia).
    rewrite !Zpow_mod_correct in Hp by lia. rewrite Zpow_mod_correct in Hg by lia.
    rewrite <- Zpower_mod, <- Z.pow_mul_r in Hp by lia. rewrite (Z.mul_comm _ q), <- Hm in Hp.
    eapply pock_step; eassumption. }
  pose proof (cprod_pos _ Hpr). apply Z.divide_pos_le in D; [nia|lia].
Qed.

(** * Trial division for the small leaf primes *)
Fixpoint trial (n d : Z) (fuel : nat) : bool :=
  match fuel with
  | O => false
  | S f => if n <? d * d then true
           else if n mod d =? 0 then false else trial n (d + 1) f
  end.

Lemma trial_ok fuel : forall n d,
  2 <= d -> 1 < n -> (forall x, 1 < x < d -> ~ (x | n)) ->
  trial n d fuel = true -> prime n.
Proof.
  induction fuel as [|f IH]; cbn [trial]; intros n d Hd Hn Hlow H; [discriminate|].
  destruct (Z.ltb_spec n (d * d)) as [Hlt|Hge].
  - apply prime_alt. split; [exact Hn|]. intros x Hx Hdiv.
    destruct Hdiv as [y Hy].
    assert (Hy1 : 1 < y < n) by nia.
    destruct (Z_lt_ge_dec x d) as [L|G].
    + apply (Hlow x); [lia|]. exists y. lia.
    + assert (y < d) by nia. apply (Hlow y); [lia|]. exists x. lia.
  - destruct (Z.eqb_spec (n mod d) 0) as [E|E]; [discriminate|].
    apply (IH n (d + 1)); try lia; [|exact H].
    intros x Hx. destruct (Z.eq_dec x d) as [->|Ne].
    + intros D. apply E. apply Z.mod_divide; [lia|exact D].
    + apply Hlow. lia.
Qed.

Lemma trial_prime n fuel : 1 < n -> trial n 2 fuel = true -> prime n.
Proof. intros Hn H. apply (trial_ok fuel n 2); [lia|exact Hn| |exact H]. intros; lia. Qed.
