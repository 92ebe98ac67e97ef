(** C44: proof of work round trip. *)
From Coq Require Import NArith Lia.
From mathcomp Require Import all_ssreflect.
From Verif.Model Require Import Base OrderedMap Transcript ProofOfWork.
Set Implicit Arguments.
Unset Strict Implicit.
Unset Printing Implicit Defensive.

Section C44.
Variables (T : Type) (absorb : T -> seq N -> T) (int_challenge : T -> N * T) (w : N).
Notation generate := (pow_generate absorb int_challenge w).
Notation verify := (pow_verify absorb int_challenge).

(** A nonce returned by the prover is accepted by the verifier, and both transcripts are then the same. *)
Theorem C44_round_trip fuel tr start mask nonce tr' :
  generate fuel tr start mask = Some (nonce, tr') -> verify tr nonce mask = (true, tr').
Proof.
rewrite /pow_generate /pow_verify; move: (N.modulo start _) => n0.
have H : forall n1 n, pow_loop absorb int_challenge w fuel tr mask n1 = Some n ->
    N.eqb (N.land (int_challenge (absorb tr (pow_bytes n))).1 mask) 0%num.
  elim: fuel => //= fuel ih n1 n; case e1 : (int_challenge _) => [r t]; case e2 : (N.eqb _ _); last exact: ih.
  by case=> <-; rewrite e1.
case el : pow_loop => [n|] //=; have := H _ _ el; case e : (int_challenge _) => [r t] /= hr [<- <-].
by rewrite e hr.
Qed.

(** The prover takes the first accepted nonce after the starting one, cyclically. *)
Definition nonce_at (start : N) (k : nat) : N := N.modulo (N.add start (N.of_nat k)) (N.pow 2%num w).
Theorem C44_first fuel tr start mask nonce tr' : generate fuel tr start mask = Some (nonce, tr') ->
  exists k, [/\ nonce = nonce_at start k, k < fuel & forall j, j < k -> (verify tr (nonce_at start j) mask).1 = false].
Proof.
have H : forall fuel k0 n, pow_loop absorb int_challenge w fuel tr mask (nonce_at start k0) = Some n ->
    exists k, [/\ n = nonce_at start (k0 + k), k < fuel & forall j, j < k -> (verify tr (nonce_at start (k0 + j)) mask).1 = false].
  elim=> //= f ih k0 n; case e1 : (int_challenge _) => [r t]; case e2 : (N.eqb _ _).
    by case=> <-; exists 0; rewrite addn0.
  have -> : N.modulo (N.add (nonce_at start k0) 1) (N.pow 2 w) = nonce_at start k0.+1.
    rewrite /nonce_at N.add_mod_idemp_l; last by apply: N.pow_nonzero.
    by congr N.modulo; rewrite -N.add_assoc; congr N.add; rewrite Nnat.Nat2N.inj_succ; lia.
  case/ih => k [-> hk hj]; exists k.+1; split=> //; first by rewrite addSnnS.
  case=> [_|j hjk]; first by rewrite addn0 /pow_verify e1 /= e2.
  by rewrite -addSnnS; apply: hj.
rewrite /pow_generate; case el : pow_loop => [n|] //=; have := H fuel 0 n.
rewrite /nonce_at /= N.add_0_r => /(_ el)[k [en hk hj]].
by case: (int_challenge _) => r t [<- _]; exists k.
Qed.

(** Grinding ends exactly when some nonce is accepted. *)
Theorem C44_terminates tr start mask :
  (exists fuel r, generate fuel tr start mask = Some r) <->
  (exists2 nonce, N.lt nonce (N.pow 2%num w) & (verify tr nonce mask).1 = true).
Proof.
have pz : N.pow 2 w <> 0%num by apply: N.pow_nonzero.
split=> [[fuel [[nonce tr'] h]]|[nonce hn hv]].
  exists nonce; last by rewrite (C44_round_trip h).
  by have [k [-> _ _]] := C44_first h; apply: N.mod_lt.
pose k := N.to_nat (N.modulo (N.add nonce (N.sub (N.pow 2 w) (N.modulo start (N.pow 2 w)))) (N.pow 2 w)).
have ek : nonce_at start k = nonce.
  rewrite /nonce_at /k N2Nat.id N.add_mod_idemp_r // -N.add_mod_idemp_l //.
  have h1 := N.mod_lt start _ pz; move: (N.modulo start (N.pow 2 w)) h1 => s h1.
  have -> : (s + (nonce + (N.pow 2 w - s)) = nonce + 1 * N.pow 2 w)%num by lia.
  by rewrite N.mod_add // N.mod_small.
have hk : (verify tr (nonce_at start k) mask).1 = true by rewrite ek.
have H : forall f k0, k0 + f > k -> k0 <= k -> exists n, pow_loop absorb int_challenge w f tr mask (nonce_at start k0) = Some n.
  elim=> [|f ih] k0 h1 h2 /=; first by move: h1; rewrite addn0 ltnNge h2.
  case e1 : (int_challenge _) => [r t]; case e2 : (N.eqb _ _); first by eexists.
  have -> : N.modulo (N.add (nonce_at start k0) 1) (N.pow 2 w) = nonce_at start k0.+1.
    rewrite /nonce_at N.add_mod_idemp_l //.
    by congr N.modulo; rewrite -N.add_assoc; congr N.add; rewrite Nnat.Nat2N.inj_succ; lia.
  apply: ih; first by rewrite addSnnS.
  rewrite ltn_neqAle h2 andbT; apply/eqP => ekk.
  by move: hk; rewrite -ekk /pow_verify e1 /= e2.
have [n en] := H k.+1 0 (ltnSn k) isT; exists k.+1; rewrite /pow_generate.
move: en; rewrite /nonce_at /= N.add_0_r => ->.
by move=> /=; case: (int_challenge _) => r t; eexists.
Qed.
(** The absorbed bytes are the four low bytes of the nonce, most significant first; so nonces of 32 bits are absorbed
    without loss. *)
Theorem C44_bytes n : pow_bytes n = [:: N.modulo (N.div n 16777216) 256; N.modulo (N.div n 65536) 256; N.modulo (N.div n 256) 256; N.modulo n 256].
Proof.
have H k : N.modulo (N.shiftr (N.land n (N.shiftl 255 k)) k) 256 = N.modulo (N.div n (N.pow 2 k)) 256.
  have e : N.shiftr (N.shiftl 255 k) k = 255%num by rewrite N.shiftr_shiftl_l ?N.sub_diag ?N.shiftl_0_r //; exact: N.le_refl.
  by rewrite N.shiftr_land e -(N.shiftr_div_pow2 n k) (N.land_ones _ 8) N.mod_mod.
by rewrite /pow_bytes -(H 24%num) -(H 16%num) -(H 8%num) (N.land_ones n 8) N.mod_mod.
Qed.
Theorem C44_bytes_injective n m : N.lt n (N.pow 2 32) -> N.lt m (N.pow 2 32) -> pow_bytes n = pow_bytes m -> n = m.
Proof.
rewrite !C44_bytes => hn hm [] e3 e2 e1 e0.
have H x : N.lt x (N.pow 2 32) -> x = N.add (N.modulo x 256) (N.mul 256 (N.add (N.modulo (N.div x 256) 256) (N.mul 256 (N.add (N.modulo (N.div x 65536) 256) (N.mul 256 (N.modulo (N.div x 16777216) 256)))))).
  move=> hx; rewrite [in LHS](N.div_mod x 256) // [in LHS](N.div_mod (N.div x 256) 256) // [in LHS](N.div_mod (N.div (N.div x 256) 256) 256) //.
  have -> : N.div x 16777216 = N.div (N.div (N.div x 256) 256) 256 by rewrite !N.div_div.
  have -> : N.div x 65536 = N.div (N.div x 256) 256 by rewrite N.div_div.
  rewrite [in RHS](N.mod_small (N.div (N.div (N.div x 256) 256) 256)); first by lia.
  by rewrite !N.div_div //; apply: N.div_lt_upper_bound.
by rewrite (H n) // (H m) // e0 e1 e2 e3.
Qed.
End C44.

(** The field version: round trip, and acceptance means that the challenge has [bits] leading zero bits. *)
Section Field.
Variables (T K : Type) (absorb : T -> K -> T) (challenge : T -> K * T) (data : K -> N) (succ : K -> K) (modulus_bits : N).

Theorem C44_field_round_trip fuel tr start bits nonce tr' :
  field_pow_generate absorb challenge data succ modulus_bits fuel tr start bits = Some (nonce, tr') ->
  field_pow_verify absorb challenge data modulus_bits tr nonce bits = (true, tr').
Proof.
rewrite /field_pow_generate /field_pow_verify; move: (grinding_mask _ _) => mask.
have H : forall n1 n, field_pow_loop absorb challenge data succ fuel tr mask n1 = Some n ->
    N.eqb (N.land (data (challenge (absorb tr n)).1) mask) 0%num.
  elim: fuel => //= fuel ih n1 n; case e1 : (challenge _) => [r t]; case e2 : (N.eqb _ _); last exact: ih.
  by case=> <-; rewrite e1.
case el : field_pow_loop => [n|] //=; have := H _ _ el; case e : (challenge _) => [r t] /= hr [<- <-].
by rewrite e hr.
Qed.

Lemma land_high (r b m : N) : N.le b m -> N.lt r (N.pow 2 m) ->
  N.land r (N.shiftl (N.sub (N.shiftl 1 b) 1) (N.sub m b)) = 0%num <-> N.lt r (N.pow 2 (N.sub m b)).
Proof.
move=> hb hr; set s := N.sub m b.
have em : (m = s + b)%num by rewrite /s; lia.
have -> : N.sub (N.shiftl 1 b) 1 = N.ones b by rewrite /N.ones N.sub_1_r.
have ps : N.pow 2 s <> 0%num by apply: N.pow_nonzero.
have e1 : N.land r (N.shiftl (N.ones b) s) = N.shiftl (N.land (N.shiftr r s) (N.ones b)) s.
  apply: N.bits_inj => i; rewrite N.land_spec; case: (N.leb_spec s i) => hi.
    by rewrite !N.shiftl_spec_high' // N.land_spec N.shiftr_spec' N.sub_add.
  by rewrite !N.shiftl_spec_low // andbF.
rewrite e1 N.shiftl_mul_pow2 N.land_ones N.shiftr_div_pow2.
have h1 : N.lt (N.div r (N.pow 2 s)) (N.pow 2 b).
  by apply: N.div_lt_upper_bound => //; rewrite -N.pow_add_r -em.
rewrite (N.mod_small _ _ h1); split=> [/N.eq_mul_0[|//]|h].
  by move/(N.div_small_iff _ _ ps).
by rewrite N.div_small.
Qed.
Theorem C44_field_leading_zeros tr nonce bits : N.le bits modulus_bits ->
  (forall c, N.lt (data c) (N.pow 2 modulus_bits)) ->
  (field_pow_verify absorb challenge data modulus_bits tr nonce bits).1 = true <->
  N.lt (data (challenge (absorb tr nonce)).1) (N.pow 2 (N.sub modulus_bits bits)).
Proof.
move=> hb hd; rewrite /field_pow_verify; case: (challenge _) => c t /=.
rewrite /grinding_mask; case: N.ltb_spec => h0.
  by rewrite -(land_high hb (hd c)); split=> [/N.eqb_eq|/N.eqb_eq].
have -> : bits = 0%num by lia.
by rewrite N.land_0_r N.sub_0_r; split.
Qed.
End Field.

(** Finding: with the Poseidon transcript an integer challenge of 4 bytes has only 16 significant bits ... *)
Lemma poseidon_stepE fuel bits c r f bytes : poseidon_int_loop fuel.+1 bits c r f bytes =
  if N.ltb 0%num c && ~~ N.eqb bytes 0%num then
    poseidon_int_loop fuel bits (N.div c 256) (N.modulo (N.add r (N.mul f (N.modulo c 256))) (N.pow 2 bits))
      (N.modulo (N.mul f 256) (N.pow 2 bits)) (N.sub bytes 2)
  else r.
Proof. by []. Qed.
Theorem C44_poseidon_half (c : N) : poseidon_int_of 4 c = N.modulo c 65536.
Proof.
rewrite /poseidon_int_of; have -> : N.to_nat 4 = 4 by [].
have h1 : N.lt (N.modulo c 256) 256 by apply: N.mod_lt.
have h2 : N.lt (N.modulo (N.div c 256) 256) 256 by apply: N.mod_lt.
have -> : N.modulo c 65536 = N.add (N.modulo c 256) (N.mul 256 (N.modulo (N.div c 256) 256)).
  by have := N.mod_mul_r c 256 256; rewrite -[(256 * 256)%num]/65536%num => ->.
rewrite poseidon_stepE [~~ _]/= andbT.
have -> : N.pow 2 (8 * 4) = 4294967296%num by vm_compute.
have -> : N.sub 4 2 = 2%num by vm_compute.
have -> : N.modulo (1 * 256) 4294967296 = 256%num by vm_compute.
have hz : N.lt 0 c \/ c = 0%num by lia.
case: hz => hc; last by rewrite hc.
have -> : N.ltb 0 c by apply/N.ltb_lt.
rewrite poseidon_stepE [~~ _]/= andbT.
have -> : N.pow 2 (8 * 4) = 4294967296%num by vm_compute.
have -> : N.sub 2 2 = 0%num by vm_compute.
have -> : N.modulo (0 + 1 * N.modulo c 256) 4294967296 = N.modulo c 256.
  by move: h1; move: (N.modulo c 256) => x hx; rewrite N.mod_small; lia.
have hz : N.lt 0 (N.div c 256) \/ N.div c 256 = 0%num by move: (N.div c 256) => q; lia.
case: hz => hd; last by rewrite hd N.mod_0_l // N.mul_0_r N.add_0_r.
have -> : N.ltb 0 (N.div c 256) by apply/N.ltb_lt.
rewrite poseidon_stepE [~~ _]/= andbF.
by rewrite N.mod_small //; move: h1 h2; move: (N.modulo c 256) (N.modulo (N.div c 256) 256) => x y; lia.
Qed.
(** ... so that a mask on the 16 high bits accepts every nonce. *)
Theorem C44_poseidon_mask_refuted (T : Type) (absorb : T -> seq N -> T) (squeeze : T -> N * T) :
  exists mask, [/\ mask <> 0%num, N.lt mask (N.pow 2 32) &
    forall tr nonce, (pow_verify absorb (poseidon_int_challenge squeeze 4) tr nonce mask).1 = true].
Proof.
exists 4294901760%num; split=> // tr nonce; rewrite /pow_verify /poseidon_int_challenge.
case: (squeeze _) => c t /=; rewrite C44_poseidon_half; apply/N.eqb_eq.
have -> : 4294901760%num = N.shiftl (N.ones 16) 16 by vm_compute.
have -> : N.modulo c 65536 = N.land c (N.ones 16) by rewrite N.land_ones.
rewrite -N.land_assoc; have -> : N.land (N.ones 16) (N.shiftl (N.ones 16) 16) = 0%num by vm_compute.
exact: N.land_0_r.
Qed.

(** With the byte transcript and a toy hash (the sum modulo 251), mask 7, start 3. *)
Example C44_witness : let hash (s : seq N) := [:: N.modulo (foldl N.add 17%num s) 251%num] in
  let absorb := tr_absorb hash in let ch := tr_int_challenge hash (fun d => nth 0%num d 0) in
  pow_generate absorb ch 32 20 [:: 5%num] 3%num 7%num = Some (9%num, [:: 48%num]).
Proof. by vm_compute. Qed.

Print Assumptions C44_round_trip.
Print Assumptions C44_first.
Print Assumptions C44_terminates.
Print Assumptions C44_field_round_trip.
Print Assumptions C44_field_leading_zeros.
Print Assumptions C44_poseidon_half.
Print Assumptions C44_poseidon_mask_refuted.
Print Assumptions C44_bytes.
Print Assumptions C44_bytes_injective.
