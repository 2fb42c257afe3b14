(** Facts about the Brainfuck specification: induction, word layout. *)
From Coq Require Import ZArith List Lia Bool.
From Verif Require Import BFSpec.
Import ListNotations.
Local Open Scope Z_scope.

Section ProgInd.
Variable P : list instr -> Prop.
Hypothesis H0 : P [].
Hypothesis H1 : forall i p, (forall b, i <> Loop b) -> P p -> P (i :: p).
Hypothesis H2 : forall b p, P b -> P p -> P (Loop b :: p).

Fixpoint prog_ind_i (i : instr) : forall p, P p -> P (i :: p).
Proof.
  destruct i as [| | | | | |b]; intros p Hp; try (apply H1; [discriminate|exact Hp]).
  apply H2; [|exact Hp].
  induction b as [|j b IHb]; [exact H0|].
  apply prog_ind_i. exact IHb.
Defined.

Lemma prog_ind : forall p, P p.
Proof. induction p as [|i p IH]; [exact H0|]. apply prog_ind_i, IH. Qed.
End ProgInd.

Lemma words_pos i : 1 <= words i.
Proof.
  assert (H : forall p : list instr, match p with [] => True | j :: _ => 1 <= words j end /\ 0 <= program_words p).
  { apply prog_ind.
    - split; [exact I|]. cbn. lia.
    - intros j p Hj [_ IH]. unfold program_words in *. cbn [fold_right].
      assert (words j = 1) as ->. { destruct j; try reflexivity. exfalso. eapply Hj. reflexivity. }
      lia.
    - intros b p [_ IHb] [_ IHp]. unfold program_words in *. cbn [fold_right words]. lia. }
  apply (H [i]).
Qed.

Lemma program_words_nonneg p : 0 <= program_words p.
Proof.
  induction p as [|i p IH]; cbn; [lia|]. pose proof (words_pos i). unfold program_words in IH. lia.
Qed.

Lemma program_words_cons i p : program_words (i :: p) = words i + program_words p.
Proof. reflexivity. Qed.

Lemma words_loop b : words (Loop b) = 4 + program_words b.
Proof. reflexivity. Qed.

Lemma program_words_app p q : program_words (p ++ q) = program_words p + program_words q.
Proof.
  induction p as [|i p IH]; [reflexivity|].
  cbn [app]. rewrite !program_words_cons, IH. lia.
Qed.

Global Opaque words program_words.

(** Word encoding of a program placed at address [base]: what the compiler is
    proved to produce (VMCompile.v).  Used in proofs only. *)
Fixpoint emit_i (base : Z) (i : instr) : list Z :=
  match i with
  | Right => [chr_right] | Left => [chr_left] | Inc => [chr_inc] | Dec => [chr_dec]
  | Out => [chr_out] | In => [chr_in]
  | Loop b =>
      [chr_open; base + 4 + program_words b] ++
      (fix go (base : Z) (l : list instr) : list Z :=
         match l with [] => [] | j :: t => emit_i base j ++ go (base + words j) t end) (base + 2) b
      ++ [chr_close; base + 2]
  end.
Fixpoint emit (base : Z) (l : list instr) : list Z :=
  match l with [] => [] | j :: t => emit_i base j ++ emit (base + words j) t end.

Lemma emit_loop base b :
  emit_i base (Loop b) =
  [chr_open; base + 4 + program_words b] ++ emit (base + 2) b ++ [chr_close; base + 2].
Proof. reflexivity. Qed.

Lemma emit_length p : forall base, Z.of_nat (length (emit base p)) = program_words p.
Proof.
  induction p as [|i p Hi IH|b p IHb IHp] using prog_ind; intros base.
  - reflexivity.
  - cbn [emit]. rewrite app_length, Nat2Z.inj_add, IH, program_words_cons.
    destruct i; try reflexivity. exfalso. eapply Hi. reflexivity.
  - cbn [emit]. rewrite emit_loop, program_words_cons, words_loop.
    rewrite !app_length, !Nat2Z.inj_add, IHp, IHb. cbn [length]. lia.
Qed.
