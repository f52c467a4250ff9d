(** * Separation logic rules for words, memcpy and the Pool functions. *)
From Verif Require Export WP PoolModel SimpleAllocModel.
From iris.proofmode Require Import tactics.
From iris.prelude Require Import options.
Open Scope Z_scope.
Open Scope prog_scope.

Global Arguments bind : simpl never.
Global Arguments catch : simpl never.
Global Arguments load64 : simpl never.
Global Arguments store64 : simpl never.

Section derived.
  Context {RR : Rep} {A : Type}.
  Implicit Types (C : hPropI) (Φ : A → hPropI) (Ψ : exn → hPropI).

  Lemma wp_ret (a : A) Φ Ψ : Φ a ⊢ wp (Ret a) Φ Ψ.
  Proof. iIntros "H". iApply wpc_ret. auto. Qed.
  Lemma wp_throw (e : exn) Φ Ψ : Ψ e ⊢ wp (Throw (A:=A) e) Φ Ψ.
  Proof. iIntros "H". iApply wpc_throw. auto. Qed.
  Lemma wp_mono (p : prog A) Φ Φ' Ψ Ψ' :
    wp p Φ Ψ -∗ ((∀ a, Φ a -∗ Φ' a) ∧ (∀ e, Ψ e -∗ Ψ' e)) -∗ wp p Φ' Ψ'.
  Proof.
    iIntros "H W". iApply (wpc_strong_mono with "H").
    iSplit; [by iDestruct "W" as "[$ _]"|]. iSplit; [by iDestruct "W" as "[_ $]"|auto].
  Qed.

  (** Words *)
  Lemma wpc_load64 C a v (k : Z → prog A) Φ Ψ :
    C ∧ (word a v ∗ (word a v -∗ wpc C (k v) Φ Ψ)) ⊢ wpc C (x <- load64 a ;; k x) Φ Ψ.
  Proof.
    change (x <- load64 a ;; k x) with (Op (ELoad 8 a) k).
    rewrite -(wpc_load C 8 a (le_bytes 8 v)); [|apply le_bytes_length|done].
    iIntros "H". iSplit; [iDestruct "H" as "[$ _]"|].
    iDestruct "H" as "[_ [[Hp %Hu] W]]". iFrame "Hp". iIntros "Hp".
    rewrite le_val8; [|done]. iApply "W". by iFrame.
  Qed.
  Lemma wpc_store64 C a v w (k : unit → prog A) Φ Ψ :
    is_u64 w →
    C ∧ (word a v ∗ (word a w -∗ wpc C (k tt) Φ Ψ)) ⊢ wpc C (x <- store64 a w ;; k x) Φ Ψ.
  Proof.
    intros Hw.
    change (x <- store64 a w ;; k x) with (Op (EStore 8 a w) (fun _ => k tt)).
    rewrite -(wpc_store C 8 a (le_bytes 8 v)); [|apply le_bytes_length|done].
    iIntros "H". iSplit; [iDestruct "H" as "[$ _]"|].
    iDestruct "H" as "[_ [[Hp %Hu] W]]". iFrame "Hp". iIntros "Hp".
    iApply "W". by iFrame.
  Qed.
  Lemma wp_load64 a v (k : Z → prog A) Φ Ψ :
    word a v -∗ (word a v -∗ wp (k v) Φ Ψ) -∗ wp (x <- load64 a ;; k x) Φ Ψ.
  Proof. iIntros "H W". iApply wpc_load64. iSplit; [done|]. iFrame. Qed.
  Lemma wp_store64 a v w (k : unit → prog A) Φ Ψ :
    is_u64 w →
    word a v -∗ (word a w -∗ wp (k tt) Φ Ψ) -∗ wp (x <- store64 a w ;; k x) Φ Ψ.
  Proof. iIntros (?) "H W". iApply wpc_store64; [done|]. iSplit; [done|]. iFrame. Qed.
End derived.

(** Tail-position loads and stores. *)
Lemma bind_ret_r {RR : Rep} {A} (p : prog A) Φ Ψ C : wpc C (x <- p ;; Ret x) Φ Ψ ⊢ wpc C p Φ Ψ.
Proof.
  apply hp_entails. intros h. rewrite !hp_wpc. intros H hf s Hd Hr.
  destruct (H hf s Hd Hr) as [Ho Hc]. split.
  - rewrite run_bind in Ho. by destruct (run p s).
  - intros s' Hs'. apply Hc. clear -Hs'.
    revert s Hs'; induction p as [| | | |e k IH]; intros s; simpl; try done.
    intros [->|Hs']; [by left|]. right. destruct (exec e s) as [[v s1]|]; [|done]. by apply IH.
Qed.
Lemma wp_load64_t {RR : Rep} a v Φ Ψ :
  word a v -∗ (word a v -∗ Φ v) -∗ wp (load64 a) Φ Ψ.
Proof.
  iIntros "H W". iApply bind_ret_r. iApply (wp_load64 with "H"). iIntros "H".
  iApply wp_ret. by iApply "W".
Qed.
Lemma wp_store64_t {RR : Rep} a v w Φ Ψ :
  is_u64 w → word a v -∗ (word a w -∗ Φ tt) -∗ wp (store64 a w) Φ Ψ.
Proof.
  iIntros (?) "H W". iApply bind_ret_r. iApply (wp_store64 with "H"); [done|]. iIntros "H".
  iApply wp_ret. by iApply "W".
Qed.
Lemma wp_bind {RR : Rep} {A B} (p : prog B) (k : B → prog A) Φ Ψ :
  wp p (λ b, wp (k b) Φ Ψ) Ψ ⊢ wp (bind p k) Φ Ψ.
Proof. apply wpc_bind. Qed.
Lemma bind_assoc {RR : Rep} {A B D} (p : prog A) (q : A → prog B) (r : B → prog D) C Φ Ψ :
  wpc C (x <- p ;; y <- q x ;; r y) Φ Ψ ⊢ wpc C (y <- (x <- p ;; q x) ;; r y) Φ Ψ.
Proof.
  assert (∀ s, run (x <- p ;; y <- q x ;; r y) s = run (y <- (x <- p ;; q x) ;; r y) s) as Hrun.
  { intros s. rewrite !run_bind. destruct (run p s); try done. by rewrite run_bind. }
  assert (∀ s s', crash_state (y <- (x <- p ;; q x) ;; r y) s s' →
           crash_state (x <- p ;; y <- q x ;; r y) s s') as Hcr.
  { clear. induction p as [| | | |e k IH]; intros s s'; simpl; try done.
    intros [->|H]; [by left|]. right. destruct (exec e s) as [[v s1]|]; [|done]. by apply IH. }
  apply hp_entails. intros h. rewrite !hp_wpc. intros H hf s Hd Hr.
  destruct (H hf s Hd Hr) as [Ho Hc]. split; [by rewrite -Hrun|]. intros s' ?. apply Hc. auto.
Qed.

(** Normalise the head of a program: reassociate binds, reduce [bind (Ret _)]. *)
Ltac wpn :=
  repeat first
    [ iApply bind_assoc
    | match goal with
      | |- environments.envs_entails _ (wpc _ (bind (Ret ?a) ?k) _ _) =>
          change (bind (Ret a) k) with (k a); cbv beta iota
      | |- environments.envs_entails _ (wpc _ (bind (Throw ?a) ?k) _ _) =>
          change (bind (Throw a) k) with (Throw (A:=_) a); cbv beta iota
      end ].

(** ** memcpy *)
Lemma wp_store_bytes {RR : Rep} bs : ∀ a cs Φ Ψ,
  length cs = length bs → bytes_ok bs →
  pts a cs -∗ (pts a bs -∗ Φ tt) -∗ wp (store_bytes a bs) Φ Ψ.
Proof.
  induction bs as [|b bs IH]; intros a cs Φ Ψ Hl Hok; destruct cs as [|c cs]; simpl in Hl; try done.
  - simpl. iIntros "H W". iApply wp_ret. by iApply "W".
  - inversion Hok as [|?? Hb Hbs]; subst. cbn [store_bytes pts].
    iIntros "[Hc Hcs] W".
    change (store8 a b ;; store_bytes (a + 1) bs) with (Op (EStore 1 a b) (fun _ => store_bytes (a+1) bs)).
    iApply (wpc_store _ 1 a [c]); [done|done|]. iSplit; [done|].
    iSplitL "Hc"; [simpl; by iFrame|]. iIntros "Hc".
    iApply (IH with "Hcs"); [lia|done|]. iIntros "Hcs". iApply "W".
    simpl. rewrite Z.mod_small; [|done]. iDestruct "Hc" as "[$ _]". done.
Qed.

Lemma wp_load_bytes {RR : Rep} n : ∀ a bs Φ Ψ,
  length bs = n →
  pts a bs -∗ (pts a bs -∗ Φ bs) -∗ wp (load_bytes a n) Φ Ψ.
Proof.
  induction n as [|n IH]; intros a bs Φ Ψ Hl; destruct bs as [|b bs]; simpl in Hl; try done.
  - simpl. iIntros "H W". iApply wp_ret. by iApply "W".
  - cbn [load_bytes pts]. iIntros "[Hc Hcs] W".
    change (x <- load8 a ;; bs0 <- load_bytes (a + 1) n ;; Ret (x :: bs0))
      with (Op (ELoad 1 a) (fun x => bs0 <- load_bytes (a + 1) n ;; Ret (x :: bs0))).
    iApply (wpc_load _ 1 a [b]); [done|done|]. iSplit; [done|].
    iSplitL "Hc"; [simpl; by iFrame|]. iIntros "Hc".
    iApply wp_bind. iApply (IH with "Hcs"); [lia|]. iIntros "Hcs". iApply wp_ret.
    simpl. rewrite Z.add_0_r. iApply "W". iDestruct "Hc" as "[$ _]". done.
Qed.

(** ** System calls, in bind form *)
Lemma wpc_get_mapped {A} C m (k : Z → prog A) Φ Ψ :
  C ∧ (cell a_mapped m ∗ (cell a_mapped m -∗ wpc C (k m) Φ Ψ)) ⊢
  wpc C (x <- get_mapped ;; k x) Φ Ψ.
Proof. apply wpc_mapped. Qed.
Lemma wpc_get_epoch {A} C m (k : Z → prog A) Φ Ψ :
  C ∧ (cell a_epoch m ∗ (cell a_epoch m -∗ wpc C (k m) Φ Ψ)) ⊢
  wpc C (x <- get_epoch ;; k x) Φ Ψ.
Proof. apply wpc_epoch. Qed.
Lemma wpc_get_maxsize {A} C m (k : Z → prog A) Φ Ψ :
  C ∧ (cell a_maxsz m ∗ (cell a_maxsz m -∗ wpc C (k m) Φ Ψ)) ⊢
  wpc C (x <- get_maxsize ;; k x) Φ Ψ.
Proof. apply wpc_maxsize. Qed.
Lemma wpc_ftruncate_b {A} C n m f l (k : Z → prog A) Φ Ψ :
  m <= n →
  C ∧ (cell a_mapped m ∗ cell a_fsize f ∗ cell a_oslim l ∗
       (cell a_mapped m -∗ cell a_oslim l -∗
         (⌜n <= l⌝ -∗ cell a_fsize n -∗ wpc C (k 0) Φ Ψ) ∧
         (⌜l < n⌝ -∗ cell a_fsize f -∗ wpc C (k 1) Φ Ψ))) ⊢
  wpc C (x <- ftruncate n ;; k x) Φ Ψ.
Proof. apply wpc_ftruncate. Qed.
Lemma wpc_remap_b {A} C n m f e (k : unit → prog A) Φ Ψ :
  m <= n <= f →
  C ∧ (cell a_mapped m ∗ cell a_fsize f ∗ cell a_epoch e ∗
       (cell a_mapped n -∗ cell a_fsize f -∗ cell a_epoch (e + 1) -∗ raw m n -∗
        wpc C (k tt) Φ Ψ)) ⊢
  wpc C (x <- remap n ;; k x) Φ Ψ.
Proof. intros H. by apply (wpc_remap C n m f e (fun _ => k tt)). Qed.

(** ** Pool *)
Record cfg := Cfg { c_max : Z; c_lim : Z }.
Definition cfg_ok (c : cfg) : Prop := 0 <= c_max c ∧ c_lim c <= 2 ^ 62.
Definition size_ok (m : Z) : Prop := 4096 <= m <= 2 ^ 62 ∧ m mod 4096 = 0.

(** Everything a process knows about the pool itself: its mapping covers [m]
    bytes and the size word holds [w]; the file has at least [w] bytes. *)
Definition pool_gen (c : cfg) (m w e : Z) : hPropI :=
  (cell a_mapped m ∗ cell a_epoch e ∗ cell a_maxsz (c_max c) ∗ cell a_oslim (c_lim c) ∗
   (∃ f, cell a_fsize f ∗ ⌜w <= f⌝) ∗ word 0 w ∗
   ⌜cfg_ok c ∧ size_ok m ∧ size_ok w ∧ m <= w⌝)%I.
Definition pool_inv (c : cfg) (m e : Z) : hPropI := pool_gen c m m e.

Lemma wpc_check_size_and_remap {A} C c m w e (k : unit → prog A) Φ Ψ :
  pool_gen c m w e -∗
  ((pool_gen c m w e -∗ C) ∧
   (∀ e', ⌜w = m → e' = e⌝ -∗ pool_inv c w e' -∗ raw m w -∗ wpc C (k tt) Φ Ψ)) -∗
  wpc C (x <- check_size_and_remap ;; k x) Φ Ψ.
Proof.
  iIntros "(Hm & He & Hx & Hl & (%f & Hf & %Hwf) & H0 & %Hok) W".
  destruct Hok as (Hcfg & Hsm & Hsw & Hmw).
  unfold check_size_and_remap. wpn.
  iApply wpc_get_mapped. iSplit.
  { iDestruct "W" as "[W _]". iApply "W". iFrame. iSplit; [iExists f; by iFrame|done]. }
  iFrame "Hm". iIntros "Hm".
  rewrite bool_decide_eq_false_2; [|unfold size_ok in Hsm; lia].
  wpn. iApply wpc_load64. iSplit.
  { iDestruct "W" as "[W _]". iApply "W". iFrame. iSplit; [iExists f; by iFrame|done]. }
  iFrame "H0". iIntros "H0".
  case_bool_decide as Hw.
  - subst w. wpn. iDestruct "W" as "[_ W]". iApply ("W" with "[//] [-]").
    + iFrame. iSplit; [iExists f; by iFrame|done].
    + iApply raw_empty.
  - wpn. iApply (wpc_remap_b _ _ m f e); [lia|]. iSplit.
    { iDestruct "W" as "[W _]". iApply "W". iFrame. iSplit; [iExists f; by iFrame|done]. }
    iFrame "Hm Hf He". iIntros "Hm Hf He Hraw".
    rewrite (bool_decide_eq_false_2 (w = 0)); [|unfold size_ok in Hsw; lia]. wpn.
    iDestruct "W" as "[_ W]". iApply ("W" with "[] [-Hraw] Hraw"); [iPureIntro; congruence|].
    iFrame. iSplit; [iExists f; by iFrame|done].
Qed.

Lemma round_page_spec n : 0 <= n < 2 ^ 63 + 2 ^ 62 →
  n <= round_page n < n + 4096 ∧ round_page n mod 4096 = 0.
Proof.
  intros H. unfold round_page, PAGE. rewrite u64_small; [|lia].
  split; [|apply Z.mod_mul; lia].
  pose proof (Z.div_mod (n + 4095) 4096 ltac:(lia)).
  pose proof (Z.mod_pos_bound (n + 4095) 4096 ltac:(lia)). lia.
Qed.

(** Whether the pool may have size [n]. *)
Definition grow_allowed (c : cfg) (n : Z) : Prop :=
  (c_max c = 0 ∨ n <= c_max c) ∧ n <= c_lim c.

Lemma wpc_expand {A} C c m e n (k : unit → prog A) Φ Ψ :
  0 <= n < 2 ^ 63 + 2 ^ 62 →
  pool_inv c m e -∗
  ((∀ w, ⌜w = m ∨ w = round_page n⌝ -∗ pool_gen c m w e -∗ C) ∧
   (⌜m < round_page n ∧ grow_allowed c (round_page n)⌝ -∗
     ∀ e', pool_inv c (round_page n) e' -∗ raw m (round_page n) -∗ wpc C (k tt) Φ Ψ) ∧
   (⌜round_page n <= m ∧ (c_max c = 0 ∨ round_page n <= c_max c)⌝ -∗ pool_inv c m e -∗ wpc C (k tt) Φ Ψ) ∧
   (⌜(c_max c ≠ 0 ∧ c_max c < round_page n) ∨ (m < round_page n ∧ c_lim c < round_page n)⌝ -∗
     pool_inv c m e -∗ C ∧ Ψ RuntimeError)) -∗
  wpc C (x <- pool_expand n ;; k x) Φ Ψ.
Proof.
  intros Hn. iIntros "(Hm & He & Hx & Hl & (%f & Hf & %Hwf) & H0 & %Hok) W".
  destruct Hok as (Hcfg & Hsm & _ & _). destruct (round_page_spec n Hn) as [Hr1 Hr2].
  set (n' := round_page n) in *.
  unfold pool_expand. fold n'. wpn.
  iApply wpc_get_maxsize. iSplit.
  { iDestruct "W" as "[W _]". iApply ("W" $! m); [by iLeft|]. iFrame.
    iSplit; [iExists f; by iFrame|done]. }
  iFrame "Hx". iIntros "Hx". case_bool_decide as Hmx.
  { wpn. iApply wpc_throw. iDestruct "W" as "(_ & _ & _ & W)".
    iApply "W"; [iPureIntro; left; lia|].
    iFrame. iSplit; [iExists f; by iFrame|done]. }
  wpn. iApply wpc_get_mapped. iSplit.
  { iDestruct "W" as "[W _]". iApply ("W" $! m); [by iLeft|]. iFrame.
    iSplit; [iExists f; by iFrame|done]. }
  iFrame "Hm". iIntros "Hm". case_bool_decide as Hle.
  { wpn. iDestruct "W" as "(_ & _ & W & _)". iApply "W"; [iPureIntro; split; [lia|]|].
    - destruct (decide (c_max c = 0)); [by left|right]. lia.
    - iFrame. iSplit; [iExists f; by iFrame|done]. }
  wpn. iApply (wpc_ftruncate_b _ _ m f); [lia|]. iSplit.
  { iDestruct "W" as "[W _]". iApply ("W" $! m); [by iLeft|]. iFrame.
    iSplit; [iExists f; by iFrame|done]. }
  iFrame "Hm Hf Hl". iIntros "Hm Hl". iSplit.
  2:{ iIntros "%Hlim Hf". rewrite bool_decide_eq_true_2; [|done]. wpn.
      iApply wpc_throw. iDestruct "W" as "(_ & _ & _ & W)".
      iApply "W"; [iPureIntro; right; lia|].
      iFrame. iSplit; [iExists f; by iFrame|done]. }
  iIntros "%Hlim Hf". rewrite bool_decide_eq_false_2; [|lia]. wpn.
  unfold size_ok, cfg_ok in *.
  iApply wpc_store64. { unfold is_u64. lia. }
  iSplit.
  { iDestruct "W" as "[W _]". iApply ("W" $! m); [by iLeft|]. iFrame.
    iSplit; [iExists n'; iFrame; iPureIntro; lia|iPureIntro; split_and!; try done; lia]. }
  iFrame "H0". iIntros "H0".
  iApply (wpc_check_size_and_remap _ c m n' e with "[Hm He Hx Hl Hf H0]").
  { iFrame. iSplit; [iExists n'; iFrame; iPureIntro; lia|].
    iPureIntro. split_and!; try done; unfold size_ok; try lia. }
  iSplit.
  { iDestruct "W" as "[W _]". iIntros "H". iApply ("W" with "[] H"). by iRight. }
  iIntros (e') "_ Hp Hraw". iDestruct "W" as "(_ & W & _)".
  iApply ("W" with "[] Hp Hraw"). iPureIntro. split; [lia|].
  split; [|done]. destruct (decide (c_max c = 0)); [by left|right]. lia.
Qed.
