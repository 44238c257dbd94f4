(** The longest literal at the start of a text, at the level of parse. *)
From Verif Require Import Base ModelAst ModelParser SpecPeg SpecPos SpecApi SpecTable SpecWords.
From Verif Require Import ProofParser ProofEngine ProofApi ProofWords ProofPower PegTools ProofTill.

Lemma longest_parse : forall words, longer_first words -> forall s ast, ascii s ->
  (exists fuel, parse fuel s [(main, And [Or (map lit words); rep0 dot_ 0])] = Ok ast) <->
  exists w r, In w words /\ s = w ++ r /\ (forall w' r', In w' words -> s = w' ++ r' -> length w' <= length w) /\ ast = Rule main (Val w :: by_chars r).
Proof.
  intros words LF s ast A.
  assert (S : sane (And [Or (map lit words); rep0 dot_ 0])).
  { cbn. split; [|auto]. induction words as [|w l IH]; cbn; [exact I|]. split; [exact I|]. clear. induction l; cbn; auto. }
  rewrite (one_parse _ s ast S A). set (G := grammar_of _). split.
  - intros (ts & D & ->). apply inv_and_cons in D. destruct D as (t1 & s1 & t2 & -> & D1 & D2).
    apply (longest_word G words LF) in D1. destruct D1 as [(w & r & Iw & E & M & Q)|[_ Q]]; [|discriminate]. injection Q as -> ->.
    apply inv_and_cons in D2. destruct D2 as (t3 & s3 & t4 & -> & D3 & D4). apply inv_and_nil in D4. destruct D4 as [-> <-].
    pose proof (peg_det _ _ _ _ D3 _ (all_chars G r)) as Q. injection Q as ->.
    exists w, r. rewrite app_nil_r. auto.
  - intros (w & r & Iw & E & M & ->). exists (Val w :: by_chars r). split; [|reflexivity].
    refine (peg_and_cons G _ _ s [Val w] r (PMatch (by_chars r) []) _ _); [apply (longest_word G words LF); left; eauto 8|].
    rewrite <- (app_nil_r (by_chars r)). exact (peg_and_cons G _ _ r (by_chars r) [] (PMatch [] []) (all_chars G r) (peg_and_nil G [])).
Qed.
