(** What happens to truncated and malformed verifying keys. *)
From Coq Require Import ZArith List Lia Bool Arith.
From Verif Require Import Base Moduli Field FieldFacts LimbModel LimbSpec LimbFacts LimbBytes Halo2Model
  CircuitModel CircuitFacts SelectorModel SerdeModel SerdeSpec SerdeFacts PointFacts DomainModel
  VMModel VkModel VkSpec VkFacts.
Import ListNotations.

(** what a reader accepts it accepts also with more bytes behind *)
Definition stable {A} (r : reader A) : Prop := forall t a rest, r t = IOk a rest -> forall u, r (t ++ u) = IOk a (rest ++ u).
Lemma stable_ret {A} (a : A) : stable (iret a).
Proof. intros t b rest H u. injection H as <- <-. reflexivity. Qed.
Lemma stable_fail {A} : stable (@ifail A). Proof. intros t b rest H. discriminate. Qed.
Lemma stable_panic {A} : stable (@ipanic A). Proof. intros t b rest H. discriminate. Qed.
Lemma stable_bind {A B} (r : reader A) (f : A -> reader B) : stable r -> (forall a, stable (f a)) -> stable (ibind r f).
Proof.
  intros R F t b rest H u. unfold ibind in *. destruct (r t) as [a r1| |] eqn:E; try discriminate.
  rewrite (R _ _ _ E). apply (F a), H.
Qed.
Lemma stable_unwrap {A} (r : reader A) : stable r -> stable (iunwrap r).
Proof.
  intros R t b rest H u. unfold iunwrap in *. destruct (r t) as [a r1| |] eqn:E; try discriminate.
  injection H as <- <-. rewrite (R _ _ _ E). reflexivity.
Qed.
Lemma stable_exact n : stable (read_exact n).
Proof.
  intros t b rest H u. unfold read_exact in *. rewrite app_length.
  destruct (Nat.ltb_spec (length t) n) as [L|L]; [discriminate|]. injection H as <- <-.
  destruct (Nat.ltb_spec (length t + length u) n); [lia|].
  rewrite firstn_app, skipn_app. replace (n - length t) with 0 by lia. cbn [firstn skipn].
  rewrite app_nil_r. reflexivity.
Qed.
Lemma stable_lift {A} (x : res A) : stable (ilift x).
Proof. destruct x; [apply stable_ret|apply stable_panic]. Qed.
Lemma stable_repeat {A} n (r : reader A) : stable r -> stable (irepeat n r).
Proof.
  intros R. induction n as [|n IH]; cbn [irepeat]; [apply stable_ret|].
  apply stable_bind; [exact R|]. intros a. apply stable_bind; [exact IH|]. intros l. apply stable_ret.
Qed.
Ltac stab := repeat first
  [apply stable_bind; [|intros ?] | apply stable_unwrap | apply stable_exact | apply stable_ret | apply stable_fail
  | apply stable_panic | apply stable_lift | apply stable_repeat].
Lemma stable_raw P : stable (read_raw P).
Proof. unfold read_raw, read_limb. stab. cbv zeta. destruct (is_less_than _ _); stab. Qed.
Lemma stable_fr f : stable (read_fr f).
Proof.
  unfold read_fr, read_field, read_raw_unchecked, read_limb. stab. destruct f; [|apply stable_raw|stab].
  stab. destruct (from_repr _ _); stab.
Qed.
Local Opaque read_fr.
Lemma stable_expr f stack : stable (read_expr stack f).
Proof.
  induction stack as [|n IH]; cbn [read_expr]; [apply stable_panic|].
  apply stable_bind; [unfold read_u8; stab|]. intros t.
  assert (X : forall t, stable (match t with
      | 0 => do! c <- iunwrap (read_fr f); iret (EConst c)
      | 1 => do! i <- read_u32; do! a <- read_u8; iret (ESelector (Sel i (negb (a =? 0))))
      | 2 => do! q <- read_query; iret (EFixed q)
      | 3 => do! q <- read_query; do! p <- read_u8; iret (EAdvice q (Z.to_nat p))
      | 4 => do! q <- read_query; iret (EInstance q)
      | 5 => do! i <- read_u32; do! p <- read_u8; iret (EChallenge (Chal i (Z.to_nat p)))
      | 6 => do! a <- read_expr n f; iret (ENeg a)
      | 7 => do! a <- read_expr n f; do! b <- read_expr n f; iret (ESum a b)
      | 8 => do! a <- read_expr n f; do! b <- read_expr n f; iret (EProd a b)
      | 9 => do! a <- read_expr n f; do! c <- read_fr f; iret (EScaled a c)
      | _ => ifail
      end)%Z); [|apply X].
  clear t. intros t. unfold read_query, read_u32, read_i32, read_u8.
  destruct t as [|p|p]; [stab; apply stable_fr| |apply stable_fail].
  repeat (destruct p as [p|p|]; try solve [apply stable_fail]); stab; first [exact IH|apply stable_fr].
Qed.
Lemma stable_selassign stack : stable (read_selassign stack).
Proof. unfold read_selassign, read_u32. stab. apply stable_expr. Qed.

(** so a proper prefix of what is read is never accepted *)
Lemma stable_fails {A} (r : reader A) w v t : stable r -> reads r w v -> truncation t w -> forall a rest, r t <> IOk a rest.
Proof.
  intros S R (u & N & E) a rest H. pose proof (S _ _ _ H u) as X. rewrite <- E in X.
  pose proof (R []) as Y. rewrite app_nil_r in Y. rewrite Y in X. injection X as _ X.
  symmetry in X. apply app_eq_nil in X. tauto.
Qed.
Lemma unwrap_noerr {A} (r : reader A) t : iunwrap r t <> IErr.
Proof. unfold iunwrap. destruct (r t); discriminate. Qed.
Lemma repeat_noerr {A} (r : reader A) : (forall t, r t <> IErr) -> forall n t, irepeat n r t <> IErr.
Proof.
  intros H. induction n as [|n IH]; intros t; cbn [irepeat]; [discriminate|]. unfold ibind.
  destruct (r t) as [a r1| |] eqn:E; [|now apply H in E|discriminate].
  destruct (irepeat n r r1) as [l r2| |] eqn:E2; [discriminate|now apply IH in E2|discriminate].
Qed.

Definition key_head (v : vkey) : list Z :=
  be_bytes 4 (d_k (vk_domain v)) ++ u32_be (length (vk_fixed v)) ++ flat_map g1_write_raw (vk_fixed v) ++
  flat_map g1_write_raw (vk_permutation v) ++ u32_be (length (vk_assignments v)).
Lemma g1_raw_length g : length (g1_write_raw g) = 64.
Proof. unfold g1_write_raw, write_raw. rewrite !app_length, !le_bytes_length. reflexivity. Qed.
Lemma flat_raw_length l : length (flat_map g1_write_raw l) = 64 * length l.
Proof.
  induction l as [|g l IH]; cbn [flat_map length]; [reflexivity|]. rewrite app_length, g1_raw_length, IH. lia.
Qed.
Lemma key_head_length v : length (key_head v) = 12 + 64 * (length (vk_fixed v) + length (vk_permutation v)).
Proof.
  unfold key_head, u32_be. rewrite !app_length, !be_bytes_length, !flat_raw_length. lia.
Qed.
Lemma ibind_ok {A B} (r : reader A) (f : A -> reader B) b a rest : r b = IOk a rest -> ibind r f b = f a rest.
Proof. intros E. unfold ibind. rewrite E. reflexivity. Qed.

Local Opaque g1_write_raw g1_read_raw read_selassign write_selassign read_u32 u32_be be_bytes create_domain recreate.
Section Key.
Variables (pr : profile) (stack : nat) (v : vkey).
Hypothesis V : valid_key pr stack bcs v.

Theorem truncated_key t : truncation t (write_vk RawBytes v) ->
  read_vk pr stack RawBytes t = if length t <? length (key_head v) then IErr else IPanic.
Proof.
  intros T. destruct (vd_fixed _ _ _ _ V) as [F1 F2]. destruct (vd_perm _ _ _ _ V) as [P1 P2].
  destruct (vd_asgs _ _ _ _ V) as (A1 & A2 & A3). rewrite Forall_forall in F2, P2, A2, A3.
  assert (W : write_vk RawBytes v = key_head v ++ flat_map (write_selassign RawBytes) (vk_assignments v)).
  { unfold write_vk, key_head. rewrite <- !app_assoc. reflexivity. }
  rewrite W in T. clear W.
  assert (RF : reads (irepeat (length (vk_fixed v)) g1_read_raw) (flat_map g1_write_raw (vk_fixed v)) (vk_fixed v)).
  { apply reads_repeat. intros x I. apply reads_g1_raw; auto. }
  assert (RP : reads (irepeat (length (perm_columns bcs)) g1_read_raw) (flat_map g1_write_raw (vk_permutation v)) (vk_permutation v)).
  { rewrite <- P1. apply reads_repeat. intros x I. apply reads_g1_raw; auto. }
  apply trunc_app in T as [T|(u & -> & T)].
  - assert (L : length t < length (key_head v)).
    { destruct T as (u & N & ->). rewrite app_length. destruct u; [contradiction|cbn [length]; lia]. }
    apply Nat.ltb_lt in L. rewrite L. clear L.
    unfold key_head in T. unfold read_vk. cbn [read_g1].
    apply trunc_app in T as [T|(t1 & -> & T)].
    { unfold ibind at 1. rewrite (rejects_exact 4 _ (be_bytes_length _ _) _ T). reflexivity. }
    erewrite ibind_ok by (apply reads_exact_n, be_bytes_length). rewrite be4 by apply V.
    rewrite (create_v pr stack v V). cbn [ilift]. erewrite ibind_ok by reflexivity. cbv beta iota.
    apply trunc_app in T as [T|(t2 & -> & T)].
    { unfold ibind at 1. rewrite (rejects_u32 _ _ T). reflexivity. }
    erewrite ibind_ok by (apply reads_u32, F1).
    apply trunc_app in T as [T|(t3 & -> & T)].
    { unfold ibind at 1. rewrite (rejects_repeat g1_read_raw g1_write_raw (vk_fixed v)); [reflexivity| |exact T].
      intros x I. split; [apply reads_g1_raw|apply rejects_g1_raw]; auto. }
    erewrite ibind_ok by apply RF.
    apply trunc_app in T as [T|(t4 & -> & T)].
    { unfold ibind at 1. rewrite <- P1.
      rewrite (rejects_repeat g1_read_raw g1_write_raw (vk_permutation v)); [reflexivity| |exact T].
      intros x I. split; [apply reads_g1_raw|apply rejects_g1_raw]; auto. }
    erewrite ibind_ok by apply RP. unfold ibind at 1. rewrite (rejects_u32 _ _ T). reflexivity.
  - rewrite app_length. destruct (Nat.ltb_spec (length (key_head v) + length u) (length (key_head v))); [lia|].
    unfold key_head. rewrite <- !app_assoc. unfold read_vk. cbn [read_g1].
    erewrite ibind_ok by (apply reads_exact_n, be_bytes_length). rewrite be4 by apply V.
    rewrite (create_v pr stack v V). cbn [ilift]. erewrite ibind_ok by reflexivity. cbv beta iota.
    erewrite ibind_ok by (apply reads_u32, F1). erewrite ibind_ok by apply RF. erewrite ibind_ok by apply RP.
    erewrite ibind_ok by (apply reads_u32, A1). unfold ibind at 1.
    destruct (irepeat (length (vk_assignments v)) (iunwrap (read_selassign stack)) u) as [a r| |] eqn:E; [|exfalso|reflexivity].
    + exfalso. revert E. eapply stable_fails; [|apply (reads_repeat _ (write_selassign RawBytes))|exact T].
      * apply stable_repeat, stable_unwrap, stable_selassign.
      * intros x I. apply reads_unwrap, read_write_selassign; auto. discriminate.
    + revert E. apply repeat_noerr. intros t. apply unwrap_noerr.
Qed.
End Key.
Lemma domain_25 pr : domain_new pr 11 25 = Panic.
Proof. destruct pr; vm_compute; reflexivity. Qed.
Lemma too_large_key pr stack f rest : read_vk pr stack f ([0; 0; 0; 25]%Z ++ rest) = IPanic.
Proof.
  unfold read_vk. erewrite ibind_ok by (apply (reads_exact_n 4 [0; 0; 0; 25]%Z); reflexivity).
  change (be_value [0; 0; 0; 25]%Z) with 25%Z. rewrite create_bcs, bcs_degree. change (Z.of_nat 11) with 11%Z.
  rewrite domain_25. reflexivity.
Qed.
