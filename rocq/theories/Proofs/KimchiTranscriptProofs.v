(** Decoding of challenges and powers of alpha. *)
From mathcomp Require Import all_ssreflect all_algebra.
From Verif.Model Require Import Base OrderedMap KimchiTranscript.
From Verif.Proofs Require Import NatTac.
Set Implicit Arguments.
Unset Strict Implicit.
Unset Printing Implicit Defensive.
Import GRing.Theory.
Local Open Scope ring_scope.

Fixpoint decoded (n r : nat) : nat * nat :=
  if n is n'.+1 then
    let: (a, b) := decoded n' (r %/ 4) in let s x := if odd r then (2 * x).+1 else (2 * x).-1 in
    if odd (r %/ 2) then (s a, 2 * b)%N else (2 * a, s b)%N
  else (2, 2)%N.
Lemma decoded_bounds n : forall r, let: (a, b) := decoded n r in
  [&& 2 ^ n < a, a < 3 * 2 ^ n, 2 ^ n < b & b < 3 * 2 ^ n]%N /\ ((0 < n)%N -> odd (a + b)).
Proof.
elim: n => [|n ih] r /=; first by [].
have := ih (r %/ 4)%N; case: (decoded _ _) => a b [/and4P[h1 h2 h3 h4] _]; rewrite !expnS.
have q0 := expn_gt0 2 n; move: (2 ^ n)%N h1 h2 h3 h4 q0 => q h1 h2 h3 h4 q0.
have ev x : odd (2 * x) = false by rewrite mul2n odd_double.
have od x : (0 < x)%N -> odd (2 * x).-1 by case: x => // x _; rewrite mulnS /= ev.
have a0 : (0 < a)%N by apply: leq_ltn_trans h1.
have b0 : (0 < b)%N by apply: leq_ltn_trans h3.
by case: (odd (r %/ 2)); case: (odd r); (split; [apply/and4P; split; slia|rewrite oddD /= ?ev ?od]).
Qed.

Lemma decoded_inj n : forall r r', (r < 4 ^ n)%N -> (r' < 4 ^ n)%N -> decoded n r = decoded n r' -> r = r'.
Proof.
elim: n => [|n ih] r r'; first by rewrite expn0 !ltnS !leqn0 => /eqP -> /eqP ->.
rewrite expnSr => hr hr' /=.
have d4 x : (x < 4 ^ n * 4)%N -> (x %/ 4 < 4 ^ n)%N by move=> hx; rewrite ltn_divLR.
have := decoded_bounds n (r %/ 4); have := decoded_bounds n (r' %/ 4).
have := ih _ _ (d4 _ hr) (d4 _ hr'); have n0 : n = 0%N -> decoded n (r %/ 4) = decoded n (r' %/ 4) by move=> ->.
move: n0; case: (decoded n (r %/ 4)) (decoded n (r' %/ 4)) => a b [a' b'] n0 hi [/and4P[h1' _ h3' _] o'] [/and4P[h1 _ h3 _] o] e.
have a0 : (0 < a)%N by apply: leq_ltn_trans h1.
have b0 : (0 < b)%N by apply: leq_ltn_trans h3.
have a0' : (0 < a')%N by apply: leq_ltn_trans h1'.
have b0' : (0 < b')%N by apply: leq_ltn_trans h3'.
have par : odd (a + b) = odd (a' + b').
  by case: (posnP n) => [/n0[-> ->]|hn] //; rewrite (o hn) (o' hn).
have [e1 [e2 [ea eb]]] : odd r = odd r' /\ odd (r %/ 2) = odd (r' %/ 2) /\ a = a' /\ b = b'.
  move: e par; have := odd_double_half (a + b); have := odd_double_half (a' + b'); rewrite -!mul2n.
  move: (a + b)./2 (a' + b')./2 => u v; clear -a0 b0 a0' b0'.
  case: (odd r); case: (odd (r %/ 2)); case: (odd r'); case: (odd (r' %/ 2)); case: (odd (a + b)); case: (odd (a' + b')) => //= h1 h2 [ea eb] _;
    try (by split=> //; split=> //; split; clear -a0 b0 a0' b0' ea eb; slia); exfalso; clear -a0 b0 a0' b0' ea eb h1 h2; slia.
have e4 : (r %/ 4)%N = (r' %/ 4)%N by apply: hi; rewrite ea eb.
have dm x : x = (4 * (x %/ 4) + 2 * odd (x %/ 2) + odd x)%N.
  rewrite {1}(divn_eq x 2) modn2 {1}(divn_eq (x %/ 2) 2) modn2 -divnMA mulnDl -mulnA mulnC [(odd _ * 2)%N]mulnC //.
by rewrite (dm r) (dm r') e1 e2 e4.
Qed.

Section Field.
Variable F : fieldType.
Lemma to_field_foldE n : forall r, foldl (to_field_step (F := F) r) (2%:R, 2%:R) (rev (iota 0 n)) = ((decoded n r).1%:R, (decoded n r).2%:R).
Proof.
elim: n => [|n ih] r //=; rewrite rev_cons -cats1 foldl_cat /=.
have -> : foldl (to_field_step r) (2%:R, 2%:R) (rev (iota 1 n)) = foldl (to_field_step (F := F) (r %/ 4)) (2%:R, 2%:R) (rev (iota 0 n)).
  rewrite -[1%N]addn0 iotaDl -map_rev; elim: (rev _) (2%:R, 2%:R) => //= i l ihl st; rewrite ihl; congr foldl.
  have sh k : (r %/ 2 ^ (2 * (1 + i) + k) = r %/ 4 %/ 2 ^ (2 * i + k))%N by rewrite -divnMA mulnDr -addnA expnD.
  by rewrite /to_field_step; have := sh 0%N; rewrite !addn0 => ->; rewrite sh.
rewrite ih; have := decoded_bounds n (r %/ 4); case: (decoded _ _) => a b [/and4P[h1 _ h3 _] _].
have a0 : (0 < a)%N by apply: leq_ltn_trans h1.
have b0 : (0 < b)%N by apply: leq_ltn_trans h3.
have pr x : (0 < x)%N -> ((2 * x).-1)%:R = x%:R + x%:R - 1 :> F.
  by move=> x0; apply: (addIr 1); rewrite subrK -[X in _ + X]/(1%:R) -natrD addn1 prednK ?muln_gt0 // mul2n -addnn natrD.
have sc x : ((2 * x).+1)%:R = x%:R + x%:R + 1 :> F by rewrite -addn1 natrD mul2n -addnn natrD.
have db x : (2 * x)%:R = x%:R + x%:R :> F by rewrite mul2n -addnn natrD.
rewrite /to_field_step /= muln0 add0n expn0 divn1 expn1.
by case: (odd (r %/ 2)); case: (odd r) => /=; rewrite ?pr ?sc ?db.
Qed.
End Field.

Section Alphas.
Variables (A : eqType) (F : fieldType).
Lemma al_find_rcons (m : seq (A * (nat * nat))) e arg : al_find (rcons m e) arg =
  if al_find m arg is Some x then Some x else if e.1 == arg then Some e.2 else None.
Proof. by elim: m => //= d m ->; case: eqP. Qed.
Definition registered (regs : seq (A * nat)) : alphas A F := foldl (fun al r => al_register al r.1 r.2) (al_new A F) regs.
Lemma registeredE regs : al_next_power (registered regs) = sumn (unzip2 regs) /\
  forall arg, al_find (al_mapping (registered regs)) arg =
    let i := index arg (unzip1 regs) in
    if arg \in unzip1 regs then Some (sumn (take i (unzip2 regs)), nth 0%N (unzip2 regs) i) else None.
Proof.
elim/last_ind: regs => [|regs [a k] [ih1 ih2]] //.
have -> : registered (rcons regs (a, k)) = al_register (registered regs) a k by rewrite /registered -cats1 foldl_cat.
have sz : size (unzip2 regs) = size (unzip1 regs) by rewrite !size_map.
rewrite /unzip1 /unzip2 !map_rcons -/(unzip1 regs) -/(unzip2 regs) /al_register /=; split=> [|arg]; first by rewrite ih1 sumn_rcons.
rewrite -[rcons (unzip1 _) _]cats1 -[rcons (unzip2 _) _]cats1 mem_cat inE index_cat /=; have lt x : x \in unzip1 regs -> (index x (unzip1 regs) < size (unzip2 regs))%N by rewrite sz index_mem.
have -> : al_find (if al_find (al_mapping (registered regs)) a is None then rcons (al_mapping (registered regs)) (a, (al_next_power (registered regs), k))
    else al_mapping (registered regs)) arg = if al_find (al_mapping (registered regs)) arg is Some x then Some x
    else if a == arg then Some (al_next_power (registered regs), k) else None.
  case fa: (al_find _ a) => [x|]; last by rewrite al_find_rcons.
  by case fb: (al_find _ arg) => //; case: eqP => // ea; rewrite ea fb in fa.
rewrite ih2; case hin: (arg \in unzip1 regs) => /=; first by rewrite take_cat lt // nth_cat lt.
rewrite [arg == a]eq_sym; case: eqP => [_|//]; rewrite addn0 -sz take_cat ltnn subnn take0 cats0 ih1.
by rewrite nth_cat ltnn subnn.
Qed.
Lemma powersE (alpha : F) n : foldl (fun v (_ : nat) => rcons v (last 0 v * alpha)) [:: 1] (iota 1 n) = [seq alpha ^+ i | i <- iota 0 n.+1].
Proof.
elim: n => [|n ih]; first by rewrite /= expr0.
have it m k : iota m k.+1 = rcons (iota m k) (m + k)%N by rewrite -cats1 -[k.+1]addn1 iotaD.
have fr (f : seq F -> nat -> seq F) z l x : foldl f z (rcons l x) = f (foldl f z l) x by rewrite -cats1 foldl_cat.
rewrite (it 1%N n) (it 0%N n.+1) map_rcons fr ih; congr (rcons _ _).
by rewrite (it 0%N n) map_rcons last_rcons !add0n exprSr.
Qed.
End Alphas.
