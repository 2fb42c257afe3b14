(** Facts about the list primitives of Base.v. *)
From Coq Require Import ZArith List Lia Bool.
From Verif Require Import Base.
Import ListNotations.
Local Open Scope Z_scope.

Lemma lenZ_nonneg {A} (l : list A) : 0 <= lenZ l.
Proof. unfold lenZ. lia. Qed.
Lemma lenZ_app {A} (l m : list A) : lenZ (l ++ m) = lenZ l + lenZ m.
Proof. unfold lenZ. rewrite app_length. lia. Qed.
Lemma lenZ_cons {A} (x : A) l : lenZ (x :: l) = 1 + lenZ l.
Proof. unfold lenZ. cbn [length]. lia. Qed.
Lemma lenZ_nil {A} : lenZ (@nil A) = 0.
Proof. reflexivity. Qed.
Lemma lenZ_snoc {A} (l : list A) x : lenZ (l ++ [x]) = lenZ l + 1.
Proof. rewrite lenZ_app. reflexivity. Qed.
Lemma lenZ_map {A B} (f : A -> B) l : lenZ (map f l) = lenZ l.
Proof. unfold lenZ. rewrite map_length. reflexivity. Qed.

Lemma upd_length {A} (l : list A) : forall i x, length (upd l i x) = length l.
Proof. induction l as [|h t IH]; intros [|i] x; cbn; try reflexivity. f_equal. apply IH. Qed.
Lemma lenZ_upd {A} (l : list A) i x : lenZ (upd l i x) = lenZ l.
Proof. unfold lenZ. rewrite upd_length. reflexivity. Qed.

Lemma upd_app {A} (l m : list A) i x :
  upd (l ++ m) (length l + i) x = l ++ upd m i x.
Proof. induction l as [|h t IH]; cbn; [reflexivity|]. f_equal. exact IH. Qed.

Lemma nth_error_upd_eq {A} (l : list A) : forall i x,
  (i < length l)%nat -> nth_error (upd l i x) i = Some x.
Proof.
  induction l as [|h t IH]; intros [|i] x H; cbn in *; try lia; [reflexivity|]. apply IH. lia.
Qed.
Lemma nth_error_upd_neq {A} (l : list A) : forall i j x,
  i <> j -> nth_error (upd l i x) j = nth_error l j.
Proof.
  induction l as [|h t IH]; intros [|i] [|j] x H; cbn; try reflexivity; try lia. apply IH. lia.
Qed.

Lemma index_some {A} (l : list A) i x :
  0 <= i -> nth_error l (Z.to_nat i) = Some x -> index l i = Ok x.
Proof.
  intros Hi Hn. unfold index.
  assert (Hlt : (Z.to_nat i < length l)%nat) by (apply nth_error_Some; congruence).
  replace (0 <=? i) with true by (symmetry; apply Z.leb_le; lia).
  replace (i <? lenZ l) with true by (symmetry; apply Z.ltb_lt; unfold lenZ; lia).
  cbn [andb]. rewrite Hn. reflexivity.
Qed.

Lemma index_ok_iff {A} (l : list A) i x :
  index l i = Ok x <-> 0 <= i /\ nth_error l (Z.to_nat i) = Some x.
Proof.
  split.
  - unfold index. destruct (Z.leb_spec 0 i); cbn [andb]; [|discriminate].
    destruct (Z.ltb_spec i (lenZ l)); [|discriminate].
    destruct (nth_error l (Z.to_nat i)); [|discriminate].
    intros E. injection E as ->. split; [lia|reflexivity].
  - intros [H1 H2]. apply index_some; assumption.
Qed.

Lemma index_panic_iff {A} (l : list A) i : index l i = Panic <-> i < 0 \/ lenZ l <= i.
Proof.
  unfold index. destruct (Z.leb_spec 0 i); cbn [andb].
  - destruct (Z.ltb_spec i (lenZ l)) as [L|L].
    + destruct (nth_error l (Z.to_nat i)) eqn:E.
      * split; [discriminate|]. lia.
      * apply nth_error_None in E. unfold lenZ in L. lia.
    + split; [lia|reflexivity].
  - split; [lia|reflexivity].
Qed.

Lemma store_ok {A} (l : list A) i x : 0 <= i < lenZ l -> store l i x = Ok (upd l (Z.to_nat i) x).
Proof.
  intros H. unfold store.
  replace (0 <=? i) with true by (symmetry; apply Z.leb_le; lia).
  replace (i <? lenZ l) with true by (symmetry; apply Z.ltb_lt; lia). reflexivity.
Qed.
Lemma store_ok_inv {A} (l m : list A) i x :
  store l i x = Ok m -> 0 <= i < lenZ l /\ m = upd l (Z.to_nat i) x.
Proof.
  unfold store. destruct (Z.leb_spec 0 i); cbn [andb]; [|discriminate].
  destruct (Z.ltb_spec i (lenZ l)); [|discriminate].
  intros E. injection E as <-. split; [lia|reflexivity].
Qed.

Lemma overflow_ok pr b x : 0 <= x < 2 ^ b -> overflow pr b x = Ok x.
Proof.
  intros H. unfold overflow.
  replace (0 <=? x) with true by (symmetry; apply Z.leb_le; lia).
  replace (x <? 2 ^ b) with true by (symmetry; apply Z.ltb_lt; lia). reflexivity.
Qed.

Lemma bind_ok_inv {A B} (x : res A) (f : A -> res B) b :
  bind x f = Ok b -> exists a, x = Ok a /\ f a = Ok b.
Proof. destruct x as [a|]; cbn; [|discriminate]. intros H. exists a. auto. Qed.

Lemma nth_error_map' {A B} (f : A -> B) l n :
  nth_error (map f l) n = option_map f (nth_error l n).
Proof. revert n; induction l as [|h t IH]; intros [|n]; cbn; auto. Qed.

Ltac inv_bind H :=
  let a := fresh "a" in let E := fresh "E" in
  apply bind_ok_inv in H; destruct H as [a [E H]].
