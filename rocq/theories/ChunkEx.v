(** Executable schedulers for the three machines: lists of thread numbers, with the
    operation an idle thread begins.  Used for examples and counterexamples. *)
From Coq Require Import Bool List Arith ZArith Lia.
From Verif Require ItemModel ChunkConModel AtomModel.
Import ListNotations.

(** ** one element *)
Section Item.
Import ItemModel.
Open Scope Z_scope.
(** [None]: the thread goes on; [IAssign]: the element is assigned; [IRemove o]: an
    idle thread removes; [IBegin]: an idle thread acquires *)
Inductive iact := IGo | IAssign | IRemove (o : nat) | IBegin.
Definition iexec (s : ist) (t : nat) (a : iact) : option (lab * ist) :=
  match a with
  | IAssign => match lf s with Raw => Some (LOther, mkI 0 (rc s) Live (destr s) (taken s) (threw s) (thr s)) | _ => None end
  | IBegin => match thr s t with Idle => Some (LOther, at_pc s t (Acq1 (off s))) | _ => None end
  | IRemove o =>
      match thr s t, lf s with
      | _, Raw => None
      | Idle, _ => if taken s || (o =? 0)%nat then None
                   else Some (LOther, mkI o (rc s) (lf s) (destr s) true (threw s) (upd (thr s) t Rem1))
      | _, _ => None
      end
  | IGo =>
      match thr s t with
      | Idle => None
      | Acq1 o => if (o =? 0)%nat && (rc s <? 0) then Some (LStale, at_pc s t Hold)
                  else Some (LOther, at_pc s t (if (o =? 0)%nat then Acq2 else Idle))
      | Acq2 => Some (LOther, mkI (off s) (rc s + 1) (lf s) (destr s) (taken s) (threw s) (upd (thr s) t (Acq3 (rc s))))
      | Acq3 old => Some (LOther, at_pc s t (if (0 <=? old) && (off s =? 0)%nat then Hold else Acq4 (off s)))
      | Acq4 o => Some (LOther, mkI (off s) (rc s - 1) (lf s) (destr s) (taken s) (threw s) (upd (thr s) t (if (o =? 0)%nat then Hold else Idle)))
      | Hold => Some (LOther, rel s t)
      | Rem1 => Some (LOther, rel s t)
      end
  end.
Lemma iexec_step : forall s t a l s', iexec s t a = Some (l, s') -> istep s l s'.
Proof.
  intros s t a l s' H. destruct a; simpl in H.
  - destruct (thr s t) as [|o| |old|o| |] eqn:E; try discriminate.
    + destruct ((o =? 0)%nat && (rc s <? 0)) eqn:C.
      * apply andb_prop in C as [C1 C2]. apply Nat.eqb_eq in C1. apply Z.ltb_lt in C2. subst. injection H as <- <-. now apply s_load_rc_stale.
      * injection H as <- <-. apply s_load_rc; [assumption|]. apply andb_false_iff in C as [C|C]; [left; now apply Nat.eqb_neq|right; now apply Z.ltb_ge].
    + injection H as <- <-. now apply s_add.
    + injection H as <- <-. now apply s_check.
    + injection H as <- <-. now apply s_undo.
    + injection H as <- <-. now apply s_release.
    + injection H as <- <-. now apply s_remove_release.
  - destruct (lf s) eqn:E; try discriminate. injection H as <- <-. now apply s_assign.
  - destruct (thr s t) eqn:E, (lf s) eqn:L; try discriminate; destruct (taken s || (o =? 0)%nat) eqn:C; try discriminate; injection H as <- <-;
      apply orb_false_iff in C as [C1 C2]; apply Nat.eqb_neq in C2; rewrite <- L; apply s_remove; auto; congruence.
  - destruct (thr s t) eqn:E; try discriminate. injection H as <- <-. now apply s_load_off.
Qed.
Fixpoint irun (okb : lab -> bool) (s : ist) (l : list (nat * iact)) : option ist :=
  match l with
  | [] => Some s
  | (t, a) :: l => match iexec s t a with Some (b, s') => if okb b then irun okb s' l else None | None => None end
  end.
Lemma irun_reach : forall okb (ok : lab -> Prop) l s s', (forall b, okb b = true -> ok b) -> ireach ok s -> irun okb s l = Some s' -> ireach ok s'.
Proof.
  intros okb ok l. induction l as [|[t a] l IH]; intros s s' K R H; [now injection H as <-|]. simpl in H.
  destruct (iexec s t a) as [[b s1]|] eqn:E; [|discriminate]. destruct (okb b) eqn:B; [|discriminate].
  apply (IH s1 s' K); [|assumption]. eapply ir_step; eauto. eapply iexec_step; eauto.
Qed.
End Item.

(** ** the chunked list *)
Section Con.
Import ChunkConModel.
Context {A : Type} (size : nat).
Inductive cact := CGo | CPushV (v : A) | CRem (g : nat) | CIt.
Definition cexec (s : @cst A) (t : nat) (a : cact) : option (clab * cst) :=
  match a with
  | CPushV v => match pcs s t with CIdle => Some (CPush, at_pc s t (PHead v)) | _ => None end
  | CIt => match pcs s t with CIdle => Some (CStep, at_pc s t IHead) | _ => None end
  | CRem g =>
      match pcs s t with
      | CIdle => if assigned s g && negb (taken s g)
                 then Some (CStep, mkC (chunks s) (nxt s) (freed s) (del s) (off s) (val s) (upd (taken s) g true) (upd (pcs s) t (RRead g))) else None
      | _ => None
      end
  | CGo =>
      match pcs s t with
      | CIdle => None
      | PHead v => Some (CStep, at_pc s t (match chunks s with O => PFirst v | S c => PLoad v c end))
      | PFirst v => Some (CStep, mkC (match chunks s with O => 1 | n => n end) (nxt s) (freed s) (del s) (off s) (val s) (taken s) (upd (pcs s) t (PHead v)))
      | PLoad v c => Some (CStep, at_pc s t (if nxt s c <=? size then PAdd v c else PHead v))
      | PAdd v c => Some (CStep, mkC (chunks s) (upd (nxt s) c (S (nxt s c))) (freed s) (del s) (off s) (val s) (taken s)
          (upd (pcs s) t (if nxt s c <? size then PSet v (c * size + nxt s c) else if nxt s c =? size then PGrow v c else PHead v)))
      | PSet v g => Some (CStep, mkC (chunks s) (nxt s) (freed s) (del s) (upd (off s) g 0) (upd (val s) g (Some v)) (taken s) (upd (pcs s) t CIdle))
      | PGrow v c => Some (CStep, mkC (S (chunks s)) (nxt s) (freed s) (del s) (off s) (val s) (taken s) (upd (pcs s) t (PHead v)))
      | RRead g => if g mod size =? 0 then Some (CStep, at_pc s t (RStore g 1))
                   else if assigned s (g - 1) then Some (CStep, at_pc s t (RStore g (off s (g - 1) + 1)))
                   else Some (CGap, at_pc s t (RStore g (off s (g - 1) + 1)))
      | RStore g o => Some (CStep, mkC (chunks s) (nxt s) (freed s) (del s) (upd (off s) g o) (val s) (taken s) (upd (pcs s) t (RFree g)))
      | RFree g => Some (CStep, mkC (chunks s) (nxt s) (upd (freed s) (g / size) (S (freed s (g / size)))) (del s) (off s) (val s) (taken s)
          (upd (pcs s) t (if freed s (g / size) =? size - 1 then RErase (g / size) else CIdle)))
      | RErase c => Some (CStep, mkC (chunks s) (nxt s) (freed s) (upd (del s) c true) (off s) (val s) (taken s) (upd (pcs s) t CIdle))
      | IHead => Some (CStep, at_pc s t (match chunks s with O => IDone (assigned s) [] | S c => ILast (assigned s) c [] end))
      | ILast bn c seen => if nxt s c =? 0 then
                             match c with
                             | O => Some (CStep, at_pc s t (IDone bn seen))
                             | _ => Some (CEmptyHead, at_pc s t (IDone bn seen))
                             end
                           else Some (CStep, at_pc s t (IAt bn c (Nat.min (nxt s c) size - 1) seen))
      | IAt bn c i seen => if off s (c * size + i) =? 0 then Some (CStep, at_pc s t (back bn c i 1 (c * size + i :: seen)))
                           else Some (CStep, at_pc s t (back bn c i (off s (c * size + i)) seen))
      | IOlder bn c seen => Some (CStep, at_pc s t (match c with O => IDone bn seen | S c => if del s c then IOlder bn c seen else ILast bn c seen end))
      | IDone _ _ => None
      end
  end.
Lemma cexec_step : forall s t a l s', cexec s t a = Some (l, s') -> cstep size s t l s'.
Proof.
  intros s t a l s' H. destruct a; simpl in H.
  - destruct (pcs s t) eqn:E; try discriminate; try (injection H as <- <-; econstructor; eassumption).
    + destruct (Nat.eqb_spec (g mod size) 0) as [M|M]; [injection H as <- <-; now apply c_read_first|].
      destruct (assigned s (g - 1)) eqn:V; injection H as <- <-; [now apply c_read|now apply c_read_gap].
    + destruct (Nat.eqb_spec (nxt s c) 0) as [M|M]; [destruct c|]; injection H as <- <-; [eapply c_ilast_none; eauto|eapply c_ilast_empty; eauto|eapply c_ilast; eauto].
    + destruct (Nat.eqb_spec (off s (c * size + i)) 0) as [M|M]; injection H as <- <-; [now apply c_visit|now apply c_skip].
  - destruct (pcs s t) eqn:E; try discriminate. injection H as <- <-. now apply c_push.
  - destruct (pcs s t) eqn:E; try discriminate. destruct (assigned s g) eqn:V; [|discriminate]. destruct (taken s g) eqn:T; [discriminate|]. injection H as <- <-. now apply c_remove.
  - destruct (pcs s t) eqn:E; try discriminate. injection H as <- <-. now apply c_iter.
Qed.
Fixpoint crun (okb : clab -> bool) (s : cst) (l : list (nat * cact)) : option cst :=
  match l with
  | [] => Some s
  | (t, a) :: l => match cexec s t a with Some (b, s') => if okb b then crun okb s' l else None | None => None end
  end.
Lemma crun_reach : forall okb (ok : cst -> clab -> Prop) l s s', (forall s b, okb b = true -> ok s b) -> creach size ok s -> crun okb s l = Some s' -> creach size ok s'.
Proof.
  intros okb ok l. induction l as [|[t a] l IH]; intros s s' K R H; [now injection H as <-|]. simpl in H.
  destruct (cexec s t a) as [[b s1]|] eqn:E; [|discriminate]. destruct (okb b) eqn:B; [|discriminate].
  apply (IH s1 s' K); [|assumption]. eapply cr_step; eauto. eapply cexec_step; eauto.
Qed.
(** a thread going on for [n] steps *)
Definition steps (t n : nat) : list (nat * cact) := repeat (t, CGo) n.
End Con.
Arguments cact : clear implicits.

(** ** the list of chunks *)
Section Atom.
Import AtomModel.
Inductive aact := AGo | ANew (first : bool) | AErase (n : nat) | AIt.
Definition aexec (s : ast) (t : nat) (a : aact) : option ast :=
  match a with
  | ANew first => match pcs s t with
                  | AIdle => Some (mkA (head s) (prev s) (deleted s) (S (fr s)) (cnt s) (rk s) (app s) (firsts s)
                                    (upd (pcs s) t (if first then FCas (fr s) else NLoad (fr s))))
                  | _ => None end
  | AErase n => match pcs s t with
                | AIdle => if app s n then Some (mkA (head s) (prev s) (upd (deleted s) n true) (fr s) (cnt s) (rk s) (app s) (firsts s) (pcs s)) else None
                | _ => None end
  | AIt => match pcs s t with
           | AIdle => Some (at_pc s t (match head s with Some n => K0 (app s) n [n] | None => KDone (app s) [] end)) | _ => None end
  | AGo =>
      match pcs s t with
      | AIdle => None
      | NLoad n => Some (at_pc s t (NStore n (head s)))
      | NStore n old => Some (mkA (head s) (upd (prev s) n old) (deleted s) (fr s) (cnt s) (rk s) (app s) (firsts s) (upd (pcs s) t (NCas n old)))
      | NCas n old => Some (match head s, old with
                            | None, None => link s n (firsts s) t
                            | Some a, Some b => if a =? b then link s n (firsts s) t else at_pc s t (NLoad n)
                            | _, _ => at_pc s t (NLoad n) end)
      | FCas n => Some (match head s with None => link s n (S (firsts s)) t | _ => at_pc s t AIdle end)
      | K0 bn n seen => Some (at_pc s t (K1 bn n (prev s n) seen))
      | K1 bn n (Some q) seen => if deleted s q then Some (at_pc s t (K1 bn n (prev s q) seen)) else Some (at_pc s t (K2 bn n (Some q) seen))
      | K1 bn n None seen => Some (at_pc s t (K2 bn n None seen))
      | K2 bn n p seen => Some (mkA (head s) (upd (prev s) n p) (deleted s) (fr s) (cnt s) (rk s) (app s) (firsts s) (upd (pcs s) t (K3 bn n seen)))
      | K3 bn n seen => Some (at_pc s t (match prev s n with Some q => K0 bn q (q :: seen) | None => KDone bn seen end))
      | KDone _ _ => None
      end
  end.
Lemma aexec_step : forall s t a s', aexec s t a = Some s' -> astep s t s'.
Proof.
  intros s t a s' H. destruct a; simpl in H.
  - destruct (pcs s t) eqn:E; try discriminate; try (injection H as <-; econstructor; eassumption).
    + injection H as <-. destruct (head s) as [a|] eqn:Hh, old as [b|].
      * destruct (Nat.eqb_spec a b); [subst; eapply a_cas; eauto|eapply a_cas_fail; eauto; congruence].
      * eapply a_cas_fail; eauto; congruence.
      * eapply a_cas_fail; eauto; congruence.
      * eapply a_cas; eauto.
    + injection H as <-. destruct (head s) eqn:Hh; [eapply a_first_fail; eauto; congruence|now apply a_first].
    + destruct p as [q|].
      * destruct (deleted s q) eqn:D; injection H as <-; [eapply a_k1_next; eauto|eapply a_k1_stop; eauto; intros; congruence].
      * injection H as <-. eapply a_k1_stop; eauto; intros; discriminate.
  - destruct (pcs s t) eqn:E; try discriminate. injection H as <-. now apply a_new.
  - destruct (pcs s t) eqn:E; try discriminate. destruct (app s n) eqn:P; [|discriminate]. injection H as <-. eapply a_erase; eauto.
  - destruct (pcs s t) eqn:E; try discriminate. injection H as <-. now apply a_begin.
Qed.
Fixpoint arun (s : ast) (l : list (nat * aact)) : option ast :=
  match l with [] => Some s | (t, a) :: l => match aexec s t a with Some s' => arun s' l | None => None end end.
Lemma arun_reach : forall l s s', areach s -> arun s l = Some s' -> areach s'.
Proof.
  induction l as [|[t a] l IH]; intros s s' R H; [now injection H as <-|]. simpl in H.
  destruct (aexec s t a) as [s1|] eqn:E; [|discriminate]. apply (IH s1); [|assumption]. eapply ar_step; eauto. eapply aexec_step; eauto.
Qed.
End Atom.
