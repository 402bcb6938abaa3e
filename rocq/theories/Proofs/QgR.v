(* amd_2.c: restoring the degree lists *)
From Coq Require Import List Arith ZArith Bool Lia Permutation.
From Verif Require Import Base.
From Verif.Model Require Import Amd Amd2.
From Verif.Proofs Require Import AmdB AmdL AmdT QgA QgM QgL QgC QgS QgF QgD.
Import ListNotations.
Open Scope Z_scope.

Lemma flen {A} (p : A -> bool) l : (length (filter p l) <= length l)%nat.
Proof. induction l as [|x l IH]; cbn; [auto|]. destruct (p x); cbn; lia. Qed.

Section Restore.
Context (n : nat) (N pfree pme1 : Z) (me : nat) (acc : list nat) (f : Z -> Z) (g : graph) (nvm : Z) (dg : nat -> Z) (degme nleft : Z) (dl : nat -> list nat).
Context (ND : NoDup acc) (At : at_ f pme1 acc) (Hp1 : 0 <= pme1) (Hp2 : pme1 + Z.of_nat (length acc) <= pfree) (Hp3 : pfree <= N).
Context (Hacc : forall x, In x acc -> (x < n)%nat /\ x <> me /\ (gK g x = Var /\ 0 < gv g x \/ gK g x = Dead /\ gv g x = 0)).
Context (Hdg : forall x, In x acc -> gK g x = Var -> 0 <= dg x /\ gv g x <= degme /\ gv g x <= nleft).
Context (Hnl : nleft <= Z.of_nat n) (Hdl : forall x d, In x (dl d) -> ~ In x acc).
Context (Hf : forall p, 0 <= p < pfree -> 0 <= f p < Z.of_nat n).

Definition livev (x : nat) : bool := negb (gv g x =? 0).
Definition newdeg (x : nat) : Z := Z.min (dg x + degme - gv g x) (nleft - gv g x).
Definition kept (pre : list nat) : list nat := filter livev pre.

Record RI (q0 : quotient) (k : nat) (p : Z) (q : quotient) : Prop := {
  ri_p : p = pme1 + Z.of_nat (length (kept (firstn k acc)));
  ri_f : exists f', fz (q_iw q) N pfree f' /\ at_ f' pme1 (kept (firstn k acc)) /\ (forall p, p < pme1 \/ pme1 + Z.of_nat k <= p -> f' p = f p) /\ (forall p, 0 <= p < pfree -> 0 <= f' p < Z.of_nat n);
  ri_nv : fa (q_nv q) n (fun x => if Nat.eqb x me then nvm else if inb x acc && negb (inb x (firstn k acc)) then - gv g x else gv g x);
  ri_dg : fa (q_deg q) n (fun x => if inb x (kept (firstn k acc)) then newdeg x else dg x);
  ri_ls : exists dl', LS n (q_lists q) dl' (fun _ => []) /\ (forall x d, In x (dl' d) <-> In x (dl d) \/ In x (kept (firstn k acc)) /\ newdeg x = Z.of_nat d) /\
     0 <= q_mindeg q /\ forall d, Z.of_nat d < q_mindeg q -> dl' d = [];
  ri_same : q_pe q = q_pe q0 /\ q_len q = q_len q0 /\ q_pfree q = q_pfree q0 /\ q_elen q = q_elen q0 /\ q_w q = q_w q0 /\ q_wflg q = q_wflg q0 /\ q_nel q = q_nel q0 /\ q_lemax q = q_lemax q0 }.

Lemma restore_step q0 k p q : (k < length acc)%nat -> RI q0 k p q -> wp (restore_row pme1 degme nleft k (p, q)) (fun '(p, q) => RI q0 (S k) p q).
Proof.
  intros Hk [R1 (f' & R2 & R3 & R4 & R5) R6 R7 (dl' & R8 & R9 & R10 & R11) R12]. set (i := nth k acc 0%nat). assert (Hi : In i acc) by (apply nth_In; auto).
  destruct (Hacc i Hi) as (Li & Ni & Ki).
  assert (Fs : firstn (S k) acc = firstn k acc ++ [i]) by (apply firstn_S_nth; auto).
  assert (Ip : ~ In i (firstn k acc)).
  { pose proof ND as X. rewrite <- (firstn_skipn (S k) acc), Fs in X. apply nodup_app in X. destruct X as (X & _). apply nodup_app in X. destruct X as (_ & _ & X). intros Y. apply (X i Y). left; auto. }
  assert (Kl : (length (kept (firstn k acc)) <= k)%nat) by (unfold kept; assert (X := flen livev (firstn k acc)); rewrite firstn_length, Nat.min_l in X by lia; exact X).
  destruct q as [Pe Iw Len pf Nv Elen Degree W wf l mindeg nel lemax]. cbn [q_pe q_iw q_len q_pfree q_nv q_elen q_deg q_w q_wflg q_lists q_mindeg q_nel q_lemax] in *.
  unfold restore_row. wb. eapply wfz_get; [exact R2|lia|]. rewrite R4 by lia. rewrite (at_nth _ _ _ k 0%nat At) by auto. fold i.
  wb. eapply wfa_getn; [exact R6|exact Li|]. cbv beta. assert (E1 : Nat.eqb i me = false) by (apply Nat.eqb_neq; auto). assert (E2 : inb i acc = true) by (apply inb_in; auto).
  pose proof Ip as E3. apply inb_not in E3. rewrite E1, E2, E3. cbn [andb negb]. rewrite Z.opp_involutive.
  destruct (Z.gtb_spec (gv g i) 0) as [V|V].
  - assert (Kv : gK g i = Var) by (destruct Ki as [[X _]|[_ X]]; [auto|lia]). destruct (Hdg i Hi Kv) as (G1 & G2 & G3).
    assert (Lv : livev i = true) by (unfold livev; apply negb_true_iff, Z.eqb_neq; lia).
    assert (Kp : kept (firstn (S k) acc) = kept (firstn k acc) ++ [i]) by (rewrite Fs; unfold kept; rewrite filter_app; cbn [filter]; rewrite Lv; reflexivity).
    assert (Ikp : inb i (kept (firstn k acc)) = false) by (apply inb_not; unfold kept; rewrite filter_In; tauto).
    wb. eapply wfa_setn; [exact R6|exact Li|]. intros Nv1 F1. wb. eapply wfa_getn; [exact R7|exact Li|]. cbv beta. rewrite Ikp. fold (newdeg i).
    assert (B : 0 <= newdeg i < Z.of_nat n) by (unfold newdeg; lia). set (d := Z.to_nat (newdeg i)). assert (Ed : newdeg i = Z.of_nat d) by (unfold d; lia). rewrite !Ed.
    wb. eapply wp_conseq.
    { apply (link_ok n i d l dl' (fun _ => [])); auto; [lia|]. intros c Hc. apply R9 in Hc. destruct Hc as [Hc|[Hc _]]; [apply (Hdl i c Hc Hi)|]. apply inb_in in Hc. congruence. }
    intros l1 L1. wb. eapply wfa_setn; [exact R7|exact Li|]. intros Deg1 F2. wb. eapply wfz_set'; [exact R2|lia|exact Hp3|]. intros Iw1 F3. cbn [wp].
    constructor; cbn [q_pe q_iw q_len q_pfree q_nv q_elen q_deg q_w q_wflg q_lists q_mindeg q_nel q_lemax]; auto.
    + rewrite Kp, app_length. cbn [length]. lia.
    + eexists. split; [exact F3|]. rewrite R1. csplit.
      * rewrite Kp. apply at_app. split; [apply at_zu; [lia|exact R3]|]. cbn [at_]. rewrite zu_eq. auto.
      * intros p0 Hp0. rewrite zu_ne by lia. apply R4. lia.
      * intros p0 Hp0. unfold zu. destruct (p0 =? _); [lia|]. apply R5. exact Hp0.
    + eapply fa_ext; [exact F1|]. intros x Hx. unfold fu. rewrite Fs, inb_app, inb_one. destruct (Nat.eqb_spec x i) as [->|]; [|rewrite orb_false_r; reflexivity].
      rewrite E1, orb_true_r, andb_false_r. reflexivity.
    + eapply fa_ext; [exact F2|]. intros x Hx. unfold fu. rewrite Kp, inb_app, inb_one. destruct (Nat.eqb_spec x i) as [->|]; [rewrite orb_true_r; auto|rewrite orb_false_r; reflexivity].
    + exists (fu dl' d (i :: dl' d)). split; [exact L1|]. csplit.
      * intros x c. unfold fu. rewrite Kp, in_app_iff. cbn [In]. destruct (Nat.eqb_spec c d) as [->|Nc]; cbn [In]; rewrite R9.
        -- split; [intros [<-|[A|[A A']]]; auto|]. intros [A|[[A|[A|[]]] A']]; auto.
        -- split; [intros [A|[A A']]; auto|]. intros [A|[[A|[<-|[]]] A']]; auto. exfalso. apply Nc. lia.
      * lia.
      * intros c Hc. unfold fu. destruct (Nat.eqb_spec c d) as [->|Nc]; [lia|]. apply R11. lia.
  - assert (Kv : gv g i = 0) by (destruct Ki as [[_ X]|[_ X]]; lia).
    assert (Lv : livev i = false) by (unfold livev; rewrite Kv; reflexivity).
    assert (Kp : kept (firstn (S k) acc) = kept (firstn k acc)) by (rewrite Fs; unfold kept; rewrite filter_app; cbn [filter]; rewrite Lv, app_nil_r; reflexivity).
    cbn [wp]. constructor; cbn [q_pe q_iw q_len q_pfree q_nv q_elen q_deg q_w q_wflg q_lists q_mindeg q_nel q_lemax]; auto; rewrite ?Kp; auto.
    + exists f'. csplit; auto. intros p0 Hp0. apply R4. lia.
    + eapply fa_ext; [exact R6|]. intros x Hx. cbv beta. rewrite Fs, inb_app, inb_one. destruct (Nat.eqb_spec x i) as [->|]; [|rewrite orb_false_r; reflexivity].
      rewrite E1, orb_true_r, andb_false_r, E3, E2, Kv. reflexivity.
    + exists dl'. auto.
Qed.

Lemma restore_ok q : fz (q_iw q) N pfree f -> fa (q_nv q) n (nvd me acc nvm g) -> fa (q_deg q) n dg -> LS n (q_lists q) dl (fun _ => []) ->
  0 <= q_mindeg q -> (forall d, Z.of_nat d < q_mindeg q -> dl d = []) ->
  wp (for_loop 0 (length acc) (restore_row pme1 degme nleft) (pme1, q)) (fun '(p, q') => RI q (length acc) p q').
Proof.
  intros F1 F2 F3 F4 F5 F6. eapply wp_conseq.
  { apply (wp_for_loop (fun k '(p, q') => RI q k p q')).
    - constructor.
      + cbn. lia.
      + exists f. csplit; auto. cbn. auto.
      + eapply fa_ext; [exact F2|]. intros x Hx. unfold nvd. cbn [firstn inb existsb negb]. rewrite ?andb_true_r. reflexivity.
      + eapply fa_ext; [exact F3|]. intros x Hx. reflexivity.
      + exists dl. csplit; auto. intros; cbn; tauto.
      + csplit; reflexivity.
    - intros k [p q'] Hk R. apply restore_step; [lia|exact R]. }
  intros [p q'] R. exact R.
Qed.
End Restore.
