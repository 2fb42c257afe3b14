(** Verifying keys: generation and the byte format.

    Simplifications: [commit] stands for committing to a column given by its
    values ([commit_lagrange] and [to_affine]); the transcript representative
    (a hash of the debug text of the key, halo2_proofs/src/plonk.rs:168-186) is
    not part of the record. *)
From Coq Require Import ZArith List Bool.
From Verif Require Import Base Moduli Field LimbModel Halo2Model CircuitModel PermModel SelectorModel
  SerdeModel DomainModel VMModel.
Import ListNotations.

(** VerifyingKey (plonk.rs:50-62) *)
Record vkey := VKey {
  vk_domain : domain; vk_fixed : list g1; vk_permutation : list g1; vk_cs : cs;
  vk_degree : nat; vk_assignments : list selassign }.

(** from_parts (plonk.rs:156-190) *)
Definition from_parts (d : domain) (fixed perm : list g1) (c : cs) (asgs : list selassign) : vkey :=
  VKey d fixed perm c (cs_degree c) asgs.

(** create_domain for the project's circuit (plonk/keygen.rs:29-48) *)
Definition create_domain (pr : profile) (k : Z) : res (domain * cs) :=
  let! (_, c) := bf_configure in
  let! d := domain_new pr (Z.of_nat (cs_degree c)) k in
  Ok (d, c).

Definition DELTA : Fr := fr_value fr_delta.

(** keygen_vk for the project's circuit (plonk/keygen.rs:205-262); the copies
    declared by the synthesis are entered into the permutation in order
    (plonk/keygen.rs:144-160), its columns are committed to by [build_vk]
    (plonk/permutation/keygen.rs:106-160). *)
Definition build_key (commit : list Fr -> g1) (n : nat) (d : domain) (c : cs) (a : assembly) : eres vkey :=
  let fixed := map (fun col => map (asm_fixed a col) (seq 0 n)) (seq 0 (num_fixed c)) in
  match compress_selectors c (selector_rows c n a) with
  | Panic => EPanic
  | Ok (c', polys, asgs) =>
      let cols := perm_columns c in
      match perm_copies (length cols * n) (perm_new n cols) (rev (asm_copies a)) with
      | COk p =>
          match rmap unwrap_all (perm_polys DELTA (d_omega d) n p) with
          | Ok sigma => EOk (from_parts d (map commit (fixed ++ polys)) (map commit sigma) c' asgs)
          | Panic => EPanic
          end
      | CErr e => EErr e
      | _ => EPanic
      end
  end.
Definition lift_panic {A} (x : res A) : eres A := match x with Ok a => EOk a | Panic => EPanic end.
Definition keygen_vk (commit : list Fr -> g1) (pr : profile) (k : Z) (m : matrix) : eres vkey :=
  let n := circuit_rows k in
  elet (d, _) := lift_panic (create_domain pr k) in
  elet (_, c, a) := bf_keygen n m in
  build_key commit n d c a.

(** VerifyingKey::write (plonk.rs:75-88), permutation::VerifyingKey::write
    (plonk/permutation.rs:92-101) *)
Definition write_vk (f : serde_format) (v : vkey) : list Z :=
  be_bytes 4 (d_k (vk_domain v)) ++
  u32_be (length (vk_fixed v)) ++ flat_map (write_g1 f) (vk_fixed v) ++
  flat_map (write_g1 f) (vk_permutation v) ++
  u32_be (length (vk_assignments v)) ++ flat_map (write_selassign f) (vk_assignments v).

(** VerifyingKey::read for the project's circuit (plonk.rs:103-134),
    permutation::VerifyingKey::read (plonk/permutation.rs:103-115) *)
Definition read_vk (pr : profile) (stack : nat) (f : serde_format) : reader vkey :=
  do! kb <- read_exact 4;
  do! (d, c) <- ilift (create_domain pr (be_value kb));
  do! nf <- read_u32;
  do! fixed <- irepeat nf (read_g1 f);
  do! perm <- irepeat (length (perm_columns c)) (read_g1 f);
  do! na <- read_u32;
  do! asgs <- irepeat na (iunwrap (read_selassign stack));
  do! c' <- ilift (recreate c asgs);
  iret (from_parts d fixed perm c' asgs).
