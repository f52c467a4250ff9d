(** * The number of slots of a hash table: proof. *)
From Verif Require Export BitsSpec IterProof ReadOnlyProof.
From iris.proofmode Require Import tactics.
From iris.prelude Require Import options.
Open Scope Z_scope.
Set Default Proof Using "All".

Section all.
  Context {hash : HashFn}.
  Context {al : allocator} (S : alloc_spec al) `{!BaseFree S, !Visible S} (lm : alloc_limits) (HL : limits_ok S lm).
  Context (F : nat) (HF : 2 ^ 62 <= Z.of_nat F).

  Lemma table_bits st o t : GInv S st → g_objs st !! o = Some (VHash t) → ∃ b, 2 <= b <= 30 ∧ Z.of_nat (length t) = 2 ^ b.
  Proof.
    intros (Hok & Hbo & xs & J & K & Ho & Ht & HR) Hl. rewrite Ho in Hl.
    destruct (objs_split S lm HL F HF _ _ _ _ _ _ _ HR Hl) as (xs1 & B & xs2 & -> & _).
    assert (file_holds (λ m, ⌜∃ b, 2 <= b <= 30 ∧ Z.of_nat (length t) = 2 ^ b⌝ ∗ True)%I (g_w st)) as H.
    { eapply file_holds_mono; [|exact HR]. intros m. iIntros "(_ & R & _)".
      iDestruct (reps_mid with "R") as "[(%bits & %so & %P & %Hp & _) _]". iSplit; [|done]. iPureIntro.
      destruct Hp as (-> & _ & Hb & Hlen & _). rewrite map_length. exists bits. split; [lia|done]. }
    by apply file_holds_pure in H as [? _].
  Qed.
  Lemma table_bits_are st o t b : GInv S st → g_objs st !! o = Some (VHash t) → Z.of_nat (length t) = 2 ^ b → 0 <= b →
    bits_are o b st.
  Proof.
    intros HI Ho Hb Hb0 j Hj.
    assert (IInv S o (length t) st) as HII by (split; [exact HI|by exists t]).
    pose proof (call_ok S lm HL F HF o (length t) (h_bits o) (λ b' _, b' = b) st j t HII Ho Hj) as H.
    feed specialize H.
    { iIntros (c B Bf s Φ Ψ) "H (%bits & %so & %P & %Hp & W0 & W8 & W16 & HS) W".
      destruct Hp as (Hpt & Hwf & Hb' & Hlen & HB). iApply bind_ret_r.
      iApply (wp_h_bits S c hash F HF o bits so P with "[W0 W8 HS]"); [done|by iFrame|].
      iIntros "(W0 & W8 & HS)". iApply wp_ret. iApply ("W" with "[] H").
      - iPureIntro. apply (Z.pow_inj_r 2); [lia..|]. rewrite -Hb Hpt map_length. done.
      - iExists bits, so, P. by iFrame. }
    destruct (run_by _ _ _); try done. by destruct H.
  Qed.
  Lemma never_change st : GInv S st → bits_never_change al lm F st.
  Proof.
    intros HI o t Ho. destruct (table_bits _ _ _ HI Ho) as (b & Hb & Hl). exists b. split; [done|]. split; [done|].
    intros history. eapply sgame_mono; [| |apply (IInv_game S lm HL F HF o (length t)); by split; [|exists t]]; [|done].
    intros st' [HI' (t' & Ht' & Hn)]. apply (table_bits_are _ _ t'); [done|done|by rewrite Hn|lia].
  Qed.
  Lemma as_asked st ob st' : gct lm st ob st' → GInv S st' → bits_as_asked st ob st'.
  Proof.
    intros (_ & _ & H) HI. destruct ob as [pr k o| | | | |]; try done. destruct k as [| | |bits|]; try done.
    cbn [bits_as_asked]. destruct H as [H Hb]. apply (table_bits_are _ _ (h_new bits)); [done| | |lia].
    - rewrite H. apply lookup_insert.
    - unfold h_new. rewrite repeat_length Z2Nat.id; [done|]. apply Z.pow_nonneg. lia.
  Qed.
  Lemma refused st : GInv S st → few_bits_refused al st.
  Proof.
    intros (Hok & Hbo & xs & J & K & Ho & Ht & HR) i bits Hb [pr Hi].
    assert (h_create al bits = Throw InvalidArgument) as E.
    { unfold h_create. by rewrite bool_decide_eq_true_2. }
    rewrite E. pose proof (ro_writes_nothing (@Throw Z InvalidArgument) ltac:(constructor) (g_w st) i) as [Hw _].
    pose proof (run_pool S lm HL F HF _ _ _ _ _ _ _ (@Throw Z InvalidArgument) (λ o xs' J' s', False)
      (λ e xs' J' s', e = InvalidArgument) HR Hok Hi) as H.
    feed specialize H.
    { intros e. iIntros "(H & R & RJ)". iApply wp_throw. iExists xs, J, _. by iFrame. }
    destruct (run_by _ _ _) as [r W'|e W'| |]; try done.
    - by destruct H as [_ (?&?&?&[]&_)].
    - destruct H as [_ (?&?&?&->&_)]. destruct Hw as (E1 & E2 & _). done.
  Qed.
  Lemma main_bits W evs : GInv S (GS W ∅ 0 true) →
    sgame al lm F (λ st, bits_never_change al lm F st ∧ few_bits_refused al st) bits_as_asked evs (GS W ∅ 0 true).
  Proof.
    intros HI. eapply sgame_mono; [| |apply (sgame_inv S lm HL F HF); exact HI].
    - intros st Hst. split; [by apply never_change|by apply refused].
    - intros st ob st' _ H1 H2. by eapply as_asked.
  Qed.
End all.
