(** C24: prover and verifier of the permutation argument compute the same thing. *)
From mathcomp Require Import all_ssreflect all_algebra.
From Verif.Model Require Import Base OrderedMap Domain PlonkVariable PlonkTable CycleRepresentation PermutationArgument.
From Verif.Proofs Require Import NatTac FieldTac DomainProofs PermArgProofs.
Set Implicit Arguments.
Unset Strict Implicit.
Unset Printing Implicit Defensive.
Import GRing.Theory.
Local Open Scope ring_scope.

Section C24.
Variables (F : fieldType) (omega : F) (rows : nat) (T : Type) (challenge : T -> F * T).
Add Field Ff_c24 : (@ffield_theory F).

Lemma ring1 (a b w h v g : F) : (h * w - g * v) * (1 - a - b) = (1 - a - b) * (w * h - v * g).
Proof. fring F. Qed.
Lemma ring2 (v q : F) : q * (v ^+ 2 - v) = (v - 1) * v * q.
Proof. fring F. Qed.
Lemma size_draw n tr : size (draw challenge n tr).1 = n.
Proof. by elim: n tr => //= n ih tr; case: (challenge tr) => c tr1; have := ih tr1; case: (draw _ _ _) => cs tr2 /= ->. Qed.
Lemma factors_at (S cols : seq {poly F}) beta gamma y :
  [seq g.[y] | g <- perm_factors S cols beta gamma] = [seq sc.1 * beta + (sc.2 + gamma) | sc <- zip [seq s.[y] | s <- S] [seq c.[y] | c <- cols]].
Proof.
rewrite /perm_factors; elim: S cols => [|s S ih] [|c cols] //=; congr (_ :: _); last exact: ih.
by rewrite !hornerD hornerZ hornerC mulrC -!addrA [gamma + _]addrC.
Qed.
Lemma chunks_at m (gs : seq {poly F}) y : [seq g.[y] | g <- chunk_products m gs] = chunk_products m [seq g.[y] | g <- gs].
Proof. exact: (chunk_map [rmorphism of horner_eval y] m gs). Qed.
Lemma perm_sum_at alphas gs hs parts (prev last : {poly F}) y s : perm_sum alphas gs hs parts prev last = Some s ->
  perm_vsum alphas [seq g.[y] | g <- gs] [seq h.[y] | h <- hs] [seq p.[y] | p <- parts] prev.[y] last.[y] = Some s.[y].
Proof.
elim: alphas gs hs parts prev s => [|a alphas ih] [|g gs] [|h hs] //= parts prev s.
  by move=> [<-]; rewrite hornerD hornerN !hornerM.
case: parts => // c parts /=; case e : (perm_sum _ _ _ _ _ _) => [r|] //= -[<-].
by rewrite (ih _ _ _ _ _ e) /= hornerD hornerZ hornerD hornerN !hornerM.
Qed.

(** From the same transcript, the verifier run on the values at [y] of the polynomials of the prover (and on the value at
    [omega * y] of the grand product) returns the values at [y] of the prover's constraint polynomials, and the same
    transcript; with one part or several. *)
Theorem C24_agreement pd cols tr Fs V_P parts tr' y :
  perm_prove_eval omega rows challenge pd cols tr = Some (Fs, V_P :: parts, tr') ->
  perm_verify_eval challenge (pd_max_quotient_chunks pd) (pd_permutation_parts pd) (pd_lagrange_0 pd)
    [seq s.[y] | s <- pd_S_id pd] [seq s.[y] | s <- pd_S_sigma pd] (pd_q_last pd).[y] (pd_q_blind pd).[y] y
    [seq c.[y] | c <- cols] V_P.[y] V_P.[omega * y] [seq p.[y] | p <- parts] tr = Some ([seq f.[y] | f <- Fs], tr').
Proof.
rewrite /perm_prove_eval /perm_verify_eval; case: (challenge tr) => beta tr1; case: (challenge tr1) => gamma tr2.
rewrite !size_map; case: ifP => // hc; rewrite !vchunk_productsE -!factors_at -!chunks_at.
set g_v := perm_factors (pd_S_id pd) _ _ _; set h_v := perm_factors (pd_S_sigma pd) _ _ _; case: ifP => // /eqP hsz.
set vp := V_P_values _ _ _ _; case: ifP => // hp0.
have := size_draw (pd_permutation_parts pd - 1) tr2; case: (draw _ _ _) => alphas tr3 /= hal.
case: ifP => [/eqP hp1|hp1].
  move: hal; rewrite hp1; case: alphas => // _.
  case: (chunk_products _ g_v) => [|g gs] //=; case: (chunk_products _ h_v) => [|h hs] //= [<- <- <- <-] /=.
  congr (Some ([:: _; _; _], _)); rewrite !(hornerM, hornerD, hornerN) ?shift1_at !horner_1; [exact: mulrC|exact: ring1|exact: ring2].
case e : (perm_sum _ _ _ _ _ _) => [s|] //= -[<- <- <- <-] /=.
rewrite ifT; last first.
  rewrite !size_map hal.
  have hs : size (chunk_products (pd_max_quotient_chunks pd) h_v) = size (chunk_products (pd_max_quotient_chunks pd) g_v).
    by apply: size_chunk_eq; move/andP: hc => [/eqP h1 /eqP h2]; rewrite !size_factors.
  have hlt : (pd_permutation_parts pd - 1 <= pd_permutation_parts pd)%N by rewrite leq_subr.
  by rewrite size_perm_parts ?size_takel ?hs ?hsz.
have := perm_sum_at y e; rewrite shift1_at => -> /=.
congr (Some ([:: _; _; _], _)); rewrite !(hornerM, hornerD, hornerN) !horner_1; [exact: mulrC|by []|exact: ring2].
Qed.
End C24.

(** Four rows over F_17, two columns and the permutation that exchanges two cells of different columns (rows 0). *)
Example C24_witness : let F := [fieldType of 'F_17] in let omega : F := 4%:R in
  let pd := PermData [:: 'X; 3%:R *: 'X] [:: 'X + 2%:R%:P; 3%:R *: 'X] (1 : {poly F}) 0 'X 2 2 3 in
  isSome (perm_prove_eval omega 4 (fun n : nat => (n%:R, n.+1)) pd [:: 'X; 'X ^+ 2] 3%N).
Proof. by vm_compute. Qed.

Print Assumptions C24_agreement.
