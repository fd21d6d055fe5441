(** The list of all primes up to a bound, read from a generator of primes. *)
From Coq Require Import List ZArith Bool Lia Sorted Arith Znumtheory Factorial.
From Verif Require Import Machine GearSpec Common Weight DijkstraModel InfModel InfAwareModel SieveModel SieveProofs PrimesModel PrimesProofs.
Import ListNotations.
Open Scope Z_scope.

Lemma divides_fact n : forall k, (1 <= k <= n)%nat -> (Z.of_nat k | Z.of_nat (fact n)).
Proof.
  induction n as [|n IH]; intros k Hk; [lia|]. cbn [fact]. change (fact n + n * fact n)%nat with (S n * fact n)%nat. rewrite Nat2Z.inj_mul.
  destruct (Nat.eq_dec k (S n)) as [->|H]; [apply Z.divide_factor_l|]. apply Z.divide_mul_r. apply IH. lia.
Qed.

Lemma prime_above b : exists p, prime p /\ b < p.
Proof.
  set (n := Z.to_nat b). pose proof (lt_O_fact n) as HF.
  destruct (prime_divisor (Z.of_nat (fact n) + 1)) as (p & Hp & Hd); [lia|]. exists p. split; [exact Hp|]. pose proof (prime_ge_2 p Hp).
  destruct (Z_lt_dec b p) as [H1|H1]; [exact H1|]. exfalso.
  assert (H2 : (p | Z.of_nat (fact n))). { rewrite <- (Z2Nat.id p) by lia. apply divides_fact. lia. }
  assert (H3 : (p | 1)). { replace 1 with (Z.of_nat (fact n) + 1 - Z.of_nat (fact n)) by lia. now apply Z.divide_sub_r. }
  apply Z.divide_1_r in H3. lia.
Qed.

(** Reading the generator up to the first value above [b] *)
Lemma split_above b l : StronglySorted Z.lt l -> (exists p, In p l /\ b < p) -> exists l1 p l2, l = l1 ++ p :: l2 /\ b < p /\ forall q, In q l1 <-> In q l /\ q <= b.
Proof.
  induction l as [|x l IH]; intros HS (p & Hin & Hp); [destruct Hin|]. apply StronglySorted_inv in HS. destruct HS as [HS HF]. rewrite Forall_forall in HF.
  destruct (Z_lt_dec b x) as [Hx|Hx].
  - exists [], x, l. split; [reflexivity|]. split; [exact Hx|]. intros q. split; [intros []|]. intros [[<-|Hq] Hle]; [lia|]. specialize (HF q Hq). lia.
  - destruct Hin as [->|Hin]; [lia|]. destruct IH as (l1 & p' & l2 & -> & Hp' & H); [auto|exists p; auto|].
    exists (x :: l1), p', l2. split; [reflexivity|]. split; [exact Hp'|]. intros q. cbn [In app]. rewrite H. intuition lia.
Qed.

Lemma sieve_up_to DM PM LM cfg b : dc_is_tree cfg = false ->
  exists n l p l', sieve_yields (fst (sieve_run DM PM LM cfg n)) = l ++ p :: l' /\ b < p /\ forall q, In q l <-> prime q /\ q <= b.
Proof.
  intros Htree. destruct (prime_above b) as (p & Hp & Hb). destruct (sieve_live DM PM LM cfg Htree p Hp) as (n & Hn).
  destruct (sieve_run DM PM LM cfg n) as [os r] eqn:HR. destruct (sieve_primes DM PM LM cfg Htree n os r HR) as (_ & HS & H1 & H2). cbn [fst] in Hn.
  destruct (split_above b _ HS (ex_intro _ p (conj Hn Hb))) as (l & p' & l' & He & Hp' & H). exists n, l, p', l'. rewrite HR. split; [exact He|]. split; [exact Hp'|].
  intros q. rewrite H. split; intros [Ha Hc]; (split; [|exact Hc]); [auto|]. apply (H2 p); [auto|auto|lia].
Qed.

Lemma primes_up_to DM PM DMi PMi LMi bp sd b :
  exists n l p l', primes_of (fst (prime_search DM PM DMi PMi LMi bp sd n)) = l ++ p :: l' /\ b < p /\ forall q, In q l <-> prime q /\ q <= b.
Proof.
  destruct (prime_above b) as (p & Hp & Hb). pose proof (prime_ge_2 p Hp). destruct (primes_live DM PM DMi PMi LMi bp sd p) as (n & Hn & _); [lia|]. specialize (Hn Hp).
  destruct (prime_search DM PM DMi PMi LMi bp sd n) as [os r] eqn:HR. destruct (primes_generated DM PM DMi PMi LMi bp sd n os r HR) as (_ & HS & H1 & H2 & _). cbn [fst] in Hn.
  destruct (split_above b _ HS (ex_intro _ p (conj Hn Hb))) as (l & p' & l' & He & Hp' & H3). exists n, l, p', l'. rewrite HR. split; [exact He|]. split; [exact Hp'|].
  intros q. rewrite H3. split; intros [Ha Hc]; (split; [|exact Hc]); [auto|]. apply (H2 p); [auto|auto|lia].
Qed.
