(** Proofs: loops that change or remove the buffers of one shard. *)
From Coq Require Import NArith List Bool Lia Arith Permutation.
From Verif Require Import Amp PAmp SpecState PGates PGates2 PQCirc2 PQCirc3 MShard SpecShard PShard1 PShard2 PShard3.
Import ListNotations.
Local Open Scope N_scope.

(** The maps of shard [this] as target ([dir] true) or as control. *)
Definition msel (dir a : bool) : mapsel := if dir then tsel a else csel a.
Definition rsel (dir a : bool) : mapsel := if dir then csel a else tsel a.
Definition kc (dir : bool) (this p : N) : N := if dir then p else this.
Definition kt (dir : bool) (this p : N) : N := if dir then this else p.
Definition touch (dir a : bool) (this : N) (a' : bool) (c' t' : N) : bool := Bool.eqb a' a && ((if dir then t' else c') =? this).
Definition obind {A} (f : A -> option A) (x : option A) : option A := match x with Some y => f y | None => None end.
Definition memN (p : N) (l : list N) : bool := existsb (N.eqb p) l.
Lemma memN_in p l : memN p l = true <-> In p l.
Proof. unfold memN. rewrite existsb_exists. split; [intros (x & H & E); apply N.eqb_eq in E; subst; exact H|intros H; exists p; split; [exact H|apply N.eqb_refl]]. Qed.

Section P.
  Context {K : StarRing} (po : Polar K).
  Add Ring KrBF : (sr_ring K).
  Local Notation sh := (shards K).
  Local Notation vec := (N -> K).
  Local Notation unit1 x := (anorm x = 1%amp).
  Implicit Types (psi : vec) (s : sh).

  Lemma msel_map dir a this p s : consistent s -> sh_map s (msel dir a) this p = sh_map s (tsel a) (kt dir this p) (kc dir this p).
  Proof. intros C. destruct dir; [reflexivity|apply (cons_mirror s C)]. Qed.

  (** Every buffer of the map is replaced by [f]. *)
  Definition rewrites (dir a : bool) (this : N) (f : PhaseShard K -> option (PhaseShard K)) s s' : Prop :=
    consistent s' /\ sh_size s' = sh_size s /\
    (forall a' c' t', buffer_of s' a' c' t' = if touch dir a this a' c' t' then obind f (buffer_of s a' c' t') else buffer_of s a' c' t').

  Lemma touch_key dir a this p a' c' t' : keq a (kc dir this p) (kt dir this p) a' c' t' = touch dir a this a' c' t' && ((if dir then c' else t') =? p).
  Proof. unfold keq, touch. destruct dir; cbn [kc kt]; destruct (Bool.eqb a' a), (c' =? _), (t' =? _); reflexivity. Qed.

  Section Loop.
    Variables (dir a : bool) (this : N) (f : PhaseShard K -> option (PhaseShard K)).
    Local Notation present s e := (sh_map s (tsel a) (kt dir this (fst e)) (kc dir this (fst e)) = Some (snd e)).

    Lemma buffer_at s p i : sh_map s (tsel a) (kt dir this p) (kc dir this p) = Some i -> buffer_of s a (kc dir this p) (kt dir this p) = Some (sh_heap s i).
    Proof. intros E. unfold buffer_of. change (if a then antiTargetOfShards else targetOfShards) with (tsel a). rewrite E. reflexivity. Qed.

    Lemma map_part (step : sh -> N * N -> sh) :
      (forall s e, consistent s -> present s e -> changed a (kc dir this (fst e)) (kt dir this (fst e)) (f (sh_heap s (snd e))) s (step s e)) ->
      forall es s, NoDup (map fst es) -> consistent s -> (forall e, In e es -> present s e) ->
      let s' := fold_left step es s in
      consistent s' /\ sh_size s' = sh_size s /\
      (forall a' c' t', buffer_of s' a' c' t' = if touch dir a this a' c' t' && memN (if dir then c' else t') (map fst es) then obind f (buffer_of s a' c' t') else buffer_of s a' c' t').
    Proof.
      intros Hstep. induction es as [|e es IH]; intros s ND C Hp; cbn [fold_left map].
      - cbn. split; [exact C|]. split; [reflexivity|]. intros a' c' t'. rewrite andb_false_r. reflexivity.
      - cbn [map] in ND. apply NoDup_cons_iff in ND. destruct ND as [Hn ND].
        assert (Hpe : present s e) by (apply Hp; left; reflexivity). pose proof (Hstep s e C Hpe) as (C1 & E1 & M1 & V1).
        destruct (IH (step s e) ND C1) as (C2 & E2 & V2).
        { intros e' He'. rewrite M1; [apply Hp; right; exact He'|]. intros E. apply Hn. replace (fst e) with (fst e'); [apply in_map, He'|].
          destruct dir; cbn [kc kt] in E; congruence. }
        split; [exact C2|]. split; [congruence|]. intros a' c' t'. rewrite V2, V1, touch_key. cbn [memN existsb]. fold (memN (if dir then c' else t') (map fst es)).
        destruct (touch dir a this a' c' t') eqn:Et; cbn [andb]; [|reflexivity].
        destruct (N.eqb_spec (if dir then c' else t') (fst e)) as [E|E]; cbn [orb].
        + rewrite E. destruct (memN (fst e) (map fst es)) eqn:Em; [apply memN_in in Em; contradiction|].
          replace (buffer_of s a' c' t') with (Some (sh_heap s (snd e))); [reflexivity|]. symmetry.
          unfold touch in Et. apply andb_true_iff in Et. destruct Et as [Ea Et]. apply eqb_prop in Ea. apply N.eqb_eq in Et.
          pose proof (buffer_at s (fst e) (snd e) Hpe) as Eb. destruct dir; cbn [kc kt] in Eb; subst; exact Eb.
        + reflexivity.
    Qed.
    Lemma entries_present s : consistent s -> forall e, In e (entries s (msel dir a) this) -> present s e.
    Proof. intros C e He. apply entries_in in He. rewrite <- msel_map by exact C. apply He. Qed.
    Lemma full_view s a' c' t' (P : PhaseShard K -> option (PhaseShard K)) : consistent s ->
      (if touch dir a this a' c' t' && memN (if dir then c' else t') (map fst (entries s (msel dir a) this)) then obind P (buffer_of s a' c' t') else buffer_of s a' c' t') =
      if touch dir a this a' c' t' then obind P (buffer_of s a' c' t') else buffer_of s a' c' t'.
    Proof.
      intros C. destruct (touch dir a this a' c' t') eqn:Et; cbn [andb]; [|reflexivity].
      destruct (memN _ _) eqn:Em; [reflexivity|]. destruct (buffer_of s a' c' t') as [b|] eqn:Eb; [|reflexivity]. exfalso.
      assert (Hm : memN (if dir then c' else t') (map fst (entries s (msel dir a) this)) = true); [|congruence]. apply memN_in.
      unfold touch in Et. apply andb_true_iff in Et. destruct Et as [Ea Et]. apply eqb_prop in Ea. apply N.eqb_eq in Et. subst a'.
      destruct (buffer_bounds s a c' t' b C Eb) as (Hc & Ht & _). unfold buffer_of in Eb. change (if a then antiTargetOfShards else targetOfShards) with (tsel a) in Eb.
      destruct (sh_map s (tsel a) t' c') as [i|] eqn:Ei; [|discriminate].
      apply in_map_iff. exists ((if dir then c' else t'), i). split; [reflexivity|]. apply entries_in. cbn [fst snd]. rewrite msel_map by exact C.
      destruct dir; cbn [kc kt]; subst; auto.
    Qed.
    Lemma map_loop (step : sh -> N * N -> sh) s :
      (forall s e, consistent s -> present s e -> changed a (kc dir this (fst e)) (kt dir this (fst e)) (f (sh_heap s (snd e))) s (step s e)) ->
      consistent s -> rewrites dir a this f s (fold_left step (entries s (msel dir a) this) s).
    Proof.
      intros Hstep C. destruct (map_part step Hstep (entries s (msel dir a) this) s (entries_nodup s _ this) C (entries_present s C)) as (C1 & E1 & V1).
      split; [exact C1|]. split; [exact E1|]. intros a' c' t'. rewrite V1. apply full_view, C.
    Qed.

    Lemma entries_erased s p : consistent s ->
      entries (erase (msel dir a) this p (erase (rsel dir a) p this s)) (msel dir a) this = filter (fun e => negb (fst e =? p)) (entries s (msel dir a) this).
    Proof.
      intros C. unfold entries. change (positions (erase (msel dir a) this p (erase (rsel dir a) p this s))) with (positions s).
      assert (M : forall q, sh_map (erase (msel dir a) this p (erase (rsel dir a) p this s)) (msel dir a) this q = if q =? p then None else sh_map s (msel dir a) this q).
      { intros q. unfold erase. rewrite !set_entry_map. destruct dir; cbn [msel rsel]; rewrite ?sel_t, ?sel_c, ?sel_tc, ?sel_ct, ?eqb_reflx, ?N.eqb_refl; cbn [andb]; reflexivity. }
      induction (positions s) as [|q l IH]; [reflexivity|]. cbn [flat_map]. rewrite filter_app, <- IH, M.
      destruct (N.eqb_spec q p) as [->|Hq].
      - destruct (sh_map s (msel dir a) this p); cbn [filter fst]; rewrite ?N.eqb_refl; reflexivity.
      - destruct (sh_map s (msel dir a) this q); cbn [filter fst]; [|reflexivity]. destruct (N.eqb_spec q p); [contradiction|reflexivity].
    Qed.
    Lemma erase_changed s p : consistent s ->
      changed a (kc dir this p) (kt dir this p) None s (erase (msel dir a) this p (erase (rsel dir a) p this s)).
    Proof. intros C. apply removed_changed. destruct dir; cbn [msel rsel kc kt]; apply removed_two, C. Qed.

    Lemma filter_done (l : list (N * N)) p : ~ In p (map fst l) -> filter (fun e => negb (fst e =? p)) l = l.
    Proof.
      induction l as [|e l IH]; intros H; [reflexivity|]. cbn [filter]. cbn [map] in H. destruct (N.eqb_spec (fst e) p) as [E|E]; [exfalso; apply H; left; exact E|].
      cbn [negb]. f_equal. apply IH. intros Hin. apply H. right. exact Hin.
    Qed.

    Variable drop : PhaseShard K -> bool.
    Hypothesis f_drop : forall b, f b = if drop b then None else Some b.
    Lemma remove_part : forall todo done fuel s, consistent s -> entries s (msel dir a) this = done ++ todo -> (length todo <= fuel)%nat ->
      let s' := remove_loop fuel drop (msel dir a) (rsel dir a) this (length done) s in
      consistent s' /\ sh_size s' = sh_size s /\
      (forall a' c' t', buffer_of s' a' c' t' = if touch dir a this a' c' t' && memN (if dir then c' else t') (map fst todo) then obind f (buffer_of s a' c' t') else buffer_of s a' c' t').
    Proof.
      induction todo as [|e todo IH]; intros done fuel s C El Hf; cbn [map].
      - replace (remove_loop _ _ _ _ _ _ _) with s.
        + cbv zeta. split; [exact C|]. split; [reflexivity|]. intros a' c' t'. cbn. rewrite andb_false_r. reflexivity.
        + destruct fuel; cbn [remove_loop]; [reflexivity|]. rewrite El, app_nil_r. destruct (nth_error done (length done)) eqn:E; [|reflexivity].
          assert (nth_error done (length done) <> None) as Hn by congruence. apply nth_error_Some in Hn. lia.
      - destruct fuel as [|fuel]; [cbn [length] in Hf; lia|]. cbn [length] in Hf. cbn [remove_loop]. rewrite El. rewrite nth_error_app2, Nat.sub_diag by lia. cbn [nth_error].
        assert (Hin : In e (entries s (msel dir a) this)) by (rewrite El; apply in_or_app; right; left; reflexivity).
        pose proof (entries_present s C e Hin) as Hpe. pose proof (buffer_at s (fst e) (snd e) Hpe) as Eb.
        pose proof (entries_nodup s (msel dir a) this) as ND. rewrite El, map_app in ND. cbn [map] in ND. apply NoDup_remove in ND. destruct ND as [ND Hn].
        rewrite <- map_app in Hn.
        assert (Hkey : forall a' c' t', touch dir a this a' c' t' = true -> (if dir then c' else t') = fst e -> buffer_of s a' c' t' = Some (sh_heap s (snd e))).
        { intros a' c' t' Et E. unfold touch in Et. apply andb_true_iff in Et. destruct Et as [Ea Et]. apply eqb_prop in Ea. apply N.eqb_eq in Et.
          destruct dir; cbn [kc kt] in Eb; subst; exact Eb. }
        destruct (drop (sh_heap s (snd e))) eqn:Ed.
        + pose proof (erase_changed s (fst e) C) as (C1 & E1 & M1 & V1). set (s1 := erase (msel dir a) this (fst e) (erase (rsel dir a) (fst e) this s)) in *.
          destruct (IH done fuel s1 C1) as (C2 & E2 & V2); [| lia |].
          { subst s1. rewrite entries_erased by exact C. rewrite El, filter_app. cbn [filter]. rewrite N.eqb_refl. cbn [negb].
            rewrite <- filter_app. apply filter_done. exact Hn. }
          split; [exact C2|]. split; [congruence|]. intros a' c' t'. rewrite V2, V1, touch_key. cbn [memN existsb]. fold (memN (if dir then c' else t') (map fst todo)).
          destruct (touch dir a this a' c' t') eqn:Et; cbn [andb]; [|reflexivity].
          destruct (N.eqb_spec (if dir then c' else t') (fst e)) as [E|E]; cbn [orb]; [|reflexivity].
          rewrite (Hkey _ _ _ Et E). cbn [obind]. rewrite f_drop, Ed. destruct memN; reflexivity.
        + replace (S (length done)) with (length (done ++ [e])) by (rewrite app_length; cbn; lia).
          destruct (IH (done ++ [e]) fuel s C) as (C2 & E2 & V2); [rewrite <- app_assoc; exact El | lia |].
          split; [exact C2|]. split; [exact E2|]. intros a' c' t'. rewrite V2. cbn [memN existsb]. fold (memN (if dir then c' else t') (map fst todo)).
          destruct (touch dir a this a' c' t') eqn:Et; cbn [andb]; [|reflexivity].
          destruct (N.eqb_spec (if dir then c' else t') (fst e)) as [E|E]; cbn [orb]; [|reflexivity].
          rewrite (Hkey _ _ _ Et E). cbn [obind]. rewrite f_drop, Ed. destruct memN; reflexivity.
    Qed.
    Lemma remove_all s : consistent s ->
      rewrites dir a this f s (remove_loop (length (entries s (msel dir a) this)) drop (msel dir a) (rsel dir a) this 0 s).
    Proof.
      intros C. destruct (remove_part (entries s (msel dir a) this) [] (length (entries s (msel dir a) this)) s C eq_refl (le_n _)) as (C1 & E1 & V1).
      split; [exact C1|]. split; [exact E1|]. intros a' c' t'. cbn [length] in V1. rewrite V1. apply full_view, C.
    Qed.
  End Loop.

  (** The other loops are instances. *)
  Lemma remove_present dir a this p s : consistent s -> sh_map s (msel dir a) this p <> None ->
    RemoveBuffer (msel dir a) (rsel dir a) this p s = erase (msel dir a) this p (erase (rsel dir a) p this s).
  Proof. intros C H. unfold RemoveBuffer. destruct (sh_map s (msel dir a) this p); [reflexivity|congruence]. Qed.
  Lemma same_loop_eq dir a this : forall fuel i s, consistent s ->
    same_loop fuel (msel dir a) (RemoveBuffer (msel dir a) (rsel dir a)) this i s =
    remove_loop fuel (fun b => negb (isInvert b) && IS_SAME (cmplxDiff b) (cmplxSame b)) (msel dir a) (rsel dir a) this i s.
  Proof.
    induction fuel as [|fuel IH]; intros i s C; [reflexivity|]. cbn [same_loop remove_loop]. destruct (nth_error (entries s (msel dir a) this) i) as [e|] eqn:E; [|reflexivity].
    assert (Hp : sh_map s (msel dir a) this (fst e) <> None). { apply nth_error_In in E. apply entries_in in E. destruct E as [_ ->]. discriminate. }
    destruct (negb (isInvert (sh_heap s (snd e))) && IS_SAME (cmplxDiff (sh_heap s (snd e))) (cmplxSame (sh_heap s (snd e)))); [|apply IH, C].
    rewrite remove_present by assumption. apply IH. apply (erase_changed dir a this s (fst e) C).
  Qed.
  Lemma dump_loop_eq dir a this : forall fuel s, consistent s ->
    dump_loop fuel (msel dir a) (RemoveBuffer (msel dir a) (rsel dir a)) this s = remove_loop fuel (fun _ => true) (msel dir a) (rsel dir a) this 0 s.
  Proof.
    induction fuel as [|fuel IH]; intros s C; [reflexivity|]. cbn [dump_loop remove_loop]. destruct (entries s (msel dir a) this) as [|e l] eqn:E; cbn [nth_error]; [reflexivity|].
    assert (Hp : sh_map s (msel dir a) this (fst e) <> None). { assert (Hin : In e (entries s (msel dir a) this)) by (rewrite E; left; reflexivity). apply entries_in in Hin. destruct Hin as [_ ->]. discriminate. }
    rewrite remove_present by assumption. apply IH. apply (erase_changed dir a this s (fst e) C).
  Qed.
  Lemma dump_all_ok dir a this s : consistent s -> rewrites dir a this (fun _ => None) s (dump_all (msel dir a) (RemoveBuffer (msel dir a) (rsel dir a)) this s).
  Proof. intros C. unfold dump_all. rewrite dump_loop_eq by exact C. apply remove_all; [reflexivity|exact C]. Qed.
  Lemma same_all_ok dir a this s : consistent s ->
    rewrites dir a this (fun b => if negb (isInvert b) && IS_SAME (cmplxDiff b) (cmplxSame b) then None else Some b) s
      (same_loop (length (entries s (msel dir a) this)) (msel dir a) (RemoveBuffer (msel dir a) (rsel dir a)) this 0 s).
  Proof. intros C. rewrite same_loop_eq by exact C. apply remove_all; [reflexivity|exact C]. Qed.
  Lemma rewrites_effect dir a this f s s' : rewrites dir a this f s s' ->
    forall a' c' t' psi, gate_at s' (a', c', t') psi = gate_buf a' c' t' (if touch dir a this a' c' t' then obind f (buffer_of s a' c' t') else buffer_of s a' c' t') psi.
  Proof. intros (_ & _ & V) a' c' t' psi. rewrite gate_at_eq, V. reflexivity. Qed.
End P.
