(** Proofs about the encrypted input mode. *)
From mathcomp Require Import all_ssreflect all_algebra.
From Verif.Model Require Import Base LinearCombination ConstraintSystems Domain ArithmeticPrograms KnowledgeCommitment Groth16 EncryptedInput.
From Verif.Spec Require Import GroupSpec EncryptedSpec.
From Verif.Proofs Require Import FieldTac NatTac KcProofs KzgProofs.
Set Implicit Arguments.
Unset Strict Implicit.
Unset Printing Implicit Defensive.
Import GRing.Theory.
Local Open Scope ring_scope.

Section Encrypted.
Variables (F : fieldType) (G1 G2 GT : lmodType F) (e : G1 -> G2 -> GT).
Add Field Ff_enc : (@ffield_theory F).
Implicit Types (vk : g16_verification_key G1 G2 GT) (pr : g16_proof G1 G2).

Lemma foldl_sum (V : lmodType F) (f : nat -> V) l a : foldl (fun acc i => acc + f i) a l = a + \sum_(i <- l) f i.
Proof. by elim: l a => [|x l IH] a /=; rewrite ?big_nil ?addr0 // IH big_cons addrA. Qed.
Lemma cipher_loopE cts : forall ts acc sm, size cts = size ts ->
  cipher_loop e acc sm cts ts = (acc + \sum_(i < size cts) nth 0 cts i, sm + \sum_(i < size cts) e (nth 0 cts i) (nth 0 ts i), true).
Proof.
elim: cts => [|c cts IH] [|t ts] acc sm //=; first by rewrite !big_ord0 !addr0.
by case=> h; rewrite IH // !big_ord_recl /= !addrA.
Qed.

Lemma enc_verifyE g2 vk ct un pubkey pr n : size ct = n.+2 -> (n + size un)%N = size (vk_gamma_ABC_rest vk) -> (2 <= size un)%N ->
  size (epk_delta_s_g1 pubkey) = n -> size (epk_t_g1 pubkey) = n -> size (epk_t_g2 pubkey) = n.+1 ->
  enc_verify e g2 ct vk pubkey un pr =
  Some ((\sum_(i < n.+1) e (nth 0 ct i) (nth 0 (epk_t_g2 pubkey) i) == e (nth 0 ct n.+1) g2) &&
        (e (pr_A pr) (pr_B pr) == vk_alpha_g1_beta_g2 vk
           + e (vk_gamma_ABC_first vk + \sum_(i < n.+1) nth 0 ct i + \sum_(j < size un) nth 0 un j *: nth 0 (vk_gamma_ABC_rest vk) (n + j))
               (vk_gamma_g2 vk) + e (pr_C pr) (vk_delta_g2 vk))).
Proof.
move=> sc si su d1 d2 d3; rewrite /enc_verify sc -si d1 d2 d3 !subSS !subn0 addnC !eqxx !andbT.
have -> : [&& (2 <= n.+2)%N & ((size un + n == 0) || (n < size un + n - 1))%N].
  by rewrite /=; apply/orP; right; case: (size un) su => [|[|k]] // _; rewrite !addSn subn1 /= ltnS leq_addl.
rewrite cipher_loopE; last by rewrite size_take sc d3 leqnn.
rewrite size_take sc leqnn add0r foldl_sum addnK; congr (Some (_ && _)).
  rewrite -nth_last sc /=; congr (_ == _); apply: eq_bigr => i _; by rewrite nth_take.
congr (_ == _ + e (_ + _) _ + _); first by congr (_ + _); apply: eq_bigr => i _; rewrite nth_take.
rewrite -{1}[n]addn0 iotaDl big_map -{1}[size un]subn0 -/(index_iota 0 (size un)) big_mkord; apply: eq_bigr => j _.
by congr (nth _ _ _ *: _); slia.
Qed.
Lemma generator_vk dom (cs : r1cs F) t alpha beta gamma delta (g1 : G1) (g2 : G2) chunks pk vk :
  g16_generator e dom cs t alpha beta gamma delta g1 g2 chunks = Some (pk, vk) -> vk_gamma_g2 vk = gamma *: g2 /\ vk_delta_g2 vk = delta *: g2.
Proof.
rewrite /g16_generator; case: (qap_instance_map_with_evaluation _ _ _) => //= q.
by case: (kc_batch_exp _ _ _ _ _ _) => //= bq [_ <-].
Qed.
End Encrypted.
