(** Properties C04-C07: the Brainfuck compiler. *)
From Coq Require Import ZArith List.
From Verif Require Import Base Field BFSpec CompileSpec VMModel CompileFacts.
Import ListNotations.
Local Open Scope Z_scope.

(** C04: every balanced source of at most 65535 words compiles; the result has
    the instructions in order at their addresses, and the jump words of matching
    brackets point just past each other; every bracket has a partner. *)
Theorem C04_jump_words : forall pr src,
  balanced src -> word_count src <= 65535 ->
  exists ws, compile_to_u16 pr src = Ok ws /\ compile pr src = Ok (map FrZ ws) /\
    compiled_right src ws /\
    forall k c, nth_error (ops src) k = Some c ->
      (c = chr_open -> exists j, matching (ops src) k j) /\
      (c = chr_close -> exists i, matching (ops src) i k).
Proof. exact compile_balanced. Qed.
Print Assumptions C04_jump_words.

(** ",[.[-],]x" with a comment: hypotheses hold, and the words are these. *)
Example C04_case :
  balanced [44; 91; 46; 91; 45; 93; 44; 93; 120] /\
  word_count [44; 91; 46; 91; 45; 93; 44; 93; 120] = 12 /\
  compile_to_u16 Wrapping [44; 91; 46; 91; 45; 93; 44; 93; 120] =
    Ok [44; 91; 12; 46; 91; 9; 45; 93; 6; 44; 93; 3].
Proof.
  split; [|split; reflexivity]. split; [reflexivity|].
  intros n. do 10 (destruct n as [|n]; [discriminate|]). discriminate.
Qed.

(** C05: comments do not matter. *)
Theorem C05_comments_ignored : forall pr src,
  compile pr src = compile pr (ops src) /\
  Forall (fun c => List.In c instr_chars) (ops src).
Proof. exact compile_ops_all. Qed.
Print Assumptions C05_comments_ignored.

Example C05_case : ops [104; 43; 105; 93; 46] = [43; 93; 46].
Proof. reflexivity. Qed.

(** C06 is false: an unmatched '[' is accepted (its jump word is 0, so a zero
    cell restarts the program). *)
Theorem C06_rejects_exactly_unbalanced_refuted :
  exists src, word_count src <= 65535 /\ ~ balanced src /\
    forall pr, compile pr src = Ok (map FrZ [91; 0]).
Proof. exact unbalanced_accepted. Qed.
Print Assumptions C06_rejects_exactly_unbalanced_refuted.

(** What does hold: compilation fails exactly when some prefix closes more
    brackets than it opens.  Missing for C06: sources left with open brackets
    are not rejected. *)
Theorem C06_rejects_exactly_unbalanced_partial : forall pr src,
  word_count src <= 65535 ->
  (compile pr src = Panic <-> exists n, depth (firstn n src) < 0).
Proof. exact compile_rejects_excess_close. Qed.
Print Assumptions C06_rejects_exactly_unbalanced_partial.

Example C06_case : word_count [43; 93; 91] <= 65535 /\ depth (firstn 2 [43; 93; 91]) < 0.
Proof. split; [discriminate|reflexivity]. Qed.

(** C07 is false: 65535 times '+' followed by "[]" is balanced and compiles, in
    either build profile, into words that do not even start with the source's
    first instruction (it is overwritten with the jump word 3). *)
Theorem C07_large_programs_refuted :
  exists src, balanced src /\ forall pr, exists ws,
    compile_to_u16 pr src = Ok ws /\ ~ compiled_right src ws.
Proof. exact large_program_refutation. Qed.
Print Assumptions C07_large_programs_refuted.

(** What does hold: whatever compiles within 65535 words is right. *)
Theorem C07_large_programs_partial : forall pr src ws,
  word_count src <= 65535 -> compile_to_u16 pr src = Ok ws -> compiled_right src ws.
Proof. exact compile_jumps. Qed.
Print Assumptions C07_large_programs_partial.

Example C07_case : compile_to_u16 Checked [91; 43; 93] = Ok [91; 5; 43; 93; 2].
Proof. reflexivity. Qed.
