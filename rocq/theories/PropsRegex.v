(** Properties C01-C04 and C35: regex -> NFA, range overlap removal, packed options. *)
From Verif Require Import Base OptionUsize Regex Nfa NfaProofs Overlap OverlapProofs OverlapLaminar.
Local Open Scope N_scope.

(** C01: simulation decides the language of the regex, for every iteration order. *)
Theorem C01_nfa_recognises_language :
  forall h n, from_regex h = Ok n ->
  forall shuf, (forall k l, Permutation (shuf k l) l) ->
  forall w, exists b, nfa_simulate shuf n w = Ok b /\ (b = true <-> Lang h w).
Proof. intros h n Hn shuf Hsh w. exact (nfa_simulate_correct h n shuf w Hn Hsh). Qed.
Print Assumptions C01_nfa_recognises_language.

(** (a|b)*c with a class: accepted, runs, and its language is neither empty nor full. *)
Definition ex_hir : hir :=
  HConcat [HRep ZeroOrMore (HGroup (HAlt [HLit 97; HClass [(98, 100); (120, 122)]])); HLit 33].
Example C01_nonvacuous :
  exists n, from_regex ex_hir = Ok n /\
  nfa_simulate (fun _ l => rev l) n [97; 121; 98; 33] = Ok true /\
  nfa_simulate (fun _ l => rev l) n [97; 101; 33] = Ok false.
Proof. eexists; split; [vm_compute; reflexivity|]. split; vm_compute; reflexivity. Qed.

(** C02: exactly which trees are rejected, and how. *)
Theorem C02_from_regex_accepts_iff :
  forall h, (exists n, from_regex h = Ok n) <->
    ((forall x, subterm x h -> ~ unsupported x /\ x <> HEmpty) \/ grouped_empty h).
Proof.
  intros h. rewrite from_regex_ok_iff. unfold compilable, bad. split.
  - intros [H|H]; [left|right; exact H]. intros x Hx. split; intros Hu; apply H; exists x; auto.
  - intros [H|H]; [left|right; exact H]. intros (x & Hx & [Hu|Hu]); destruct (H x Hx); auto.
Qed.
Print Assumptions C02_from_regex_accepts_iff.

Theorem C02_from_regex_failures :
  forall h, match from_regex h with
            | Ok _ => True
            | Panic PTodo => exists x, subterm x h /\ unsupported x
            | Panic PUnwrapNone => subterm HEmpty h /\ ~ grouped_empty h
            | _ => False
            end.
Proof.
  intros h. pose proof (from_regex_post h) as H. destruct (from_regex h) as [n|p|]; auto.
Qed.
Print Assumptions C02_from_regex_failures.

Example C02_nonvacuous :
  from_regex (HConcat [HLit 97; HAnchor]) = Panic PTodo /\
  from_regex (HAlt [HLit 97; HGroup HEmpty]) = Panic PUnwrapNone /\
  is_ok (from_regex (HGroup (HGroup HEmpty))) = true /\ is_ok (from_regex ex_hir) = true.
Proof. repeat split; vm_compute; reflexivity. Qed.


(** C03 *)
Theorem C03_remove_overlap_covers :
  forall ranges, exists v, remove_overlap ranges = Ok v /\
    (forall r, In r v -> fst r < snd r) /\
    (forall c, (exists r, In r v /\ fst r <= c < snd r) <->
               (exists r, In r ranges /\ fst r <= c < snd r)).
Proof. exact remove_overlap_covered. Qed.
Print Assumptions C03_remove_overlap_covers.

Example C03_nonvacuous :
  remove_overlap [(97, 123); (99, 105); (100, 130)] =
  Ok [(97, 99); (99, 100); (100, 105); (105, 123); (123, 130)].
Proof. vm_compute; reflexivity. Qed.

(** C04 is false in general: [a-d], [a-i], [b], [b-f] leave overlapping ranges. *)
Theorem C04_disjoint_refuted :
  exists ranges v r1 r2 c, ssorted ranges /\ remove_overlap ranges = Ok v /\
    In r1 v /\ In r2 v /\ r1 <> r2 /\ fst r1 <= c < snd r1 /\ fst r2 <= c < snd r2.
Proof.
  exists [(97, 101); (97, 106); (98, 99); (98, 103)].
  eexists. exists (98, 101), (98, 99), 98.
  split; [|split; [vm_compute; reflexivity|]].
  - simpl. repeat split; intros y Hy; repeat (destruct Hy as [<-|Hy]; [reflexivity|]); destruct Hy.
  - repeat split; simpl; auto; try lia. congruence.
Qed.
Print Assumptions C04_disjoint_refuted.

(** C04 holds when any two ranges that overlap without one being inside the other are alone: the first
    character of the later one is in no third range, except the range of that character alone.  In
    particular when the ranges are pairwise nested or disjoint.  (The missing part is the general case,
    which is false.) *)
Theorem C04_disjoint_refining_partial :
  forall ranges, ssorted ranges ->
  (forall a b c, In a ranges -> In b ranges -> In c ranges ->
     fst a < fst b -> fst b < snd a -> snd a < snd b -> fst c <= fst b < snd c ->
     c = a \/ c = b \/ c = (fst b, fst b + 1)) ->
  exists v, remove_overlap ranges = Ok v /\
    ForallOrdPairs (fun r1 r2 => forall c, ~ (fst r1 <= c < snd r1 /\ fst r2 <= c < snd r2)) v /\
    (forall r p c d, In r v -> In p ranges -> fst r <= c < snd r -> fst r <= d < snd r ->
        (fst p <= c < snd p <-> fst p <= d < snd p)).
Proof.
  intros ranges Hs Hl.
  destruct (remove_overlap_tame ranges Hs) as (v & E & Hpd & Href).
  - intros a c b Ha Hc Hb H1 H2 H3 H4. destruct (Hl a b c Ha Hb Hc H1 H2 H3 H4) as [H|[H|H]]; auto.
    right; right. rewrite H. simpl. lia.
  - exists v. split; auto. split.
    + clear - Hpd. induction v as [|a v IH]; constructor.
      * apply Forall_forall. intros b Hb c [H1 H2]. destruct Hpd as [Hd _].
        specialize (Hd b Hb). unfold disj in Hd. rewrite intersects_false in Hd. lia.
      * apply IH, Hpd.
    + intros r p c d Hr Hp Hc Hd. destruct (Href r p Hr Hp) as [H|H].
      * unfold disj in H. rewrite intersects_false in H. lia.
      * unfold sub in H. lia.
Qed.
Print Assumptions C04_disjoint_refining_partial.

(** In general: the pieces refine the ranges exactly if pieces overlap only when they are equal; the
    end points are kept in any case. *)
Theorem C04_refining_iff_partial :
  forall ranges v, remove_overlap ranges = Ok v ->
  (forall r1 r2, In r1 v -> In r2 v -> r1 = r2 \/ forall c, ~ (fst r1 <= c < snd r1 /\ fst r2 <= c < snd r2)) <->
  (forall r p c d, In r v -> In p ranges -> fst r <= c < snd r -> fst r <= d < snd r ->
    (fst p <= c < snd p <-> fst p <= d < snd p)).
Proof.
  intros ranges v E. split.
  - intros Hd r p c d Hr Hp Hc Hd'. split; apply (disjoint_refines ranges v E Hd r p); auto.
  - intros H. apply (refines_disjoint ranges v E). intros r p c d Hr Hp Hc Hd Hpc. apply (H r p c d Hr Hp Hc Hd). exact Hpc.
Qed.
Print Assumptions C04_refining_iff_partial.

(** Equal pieces do occur, for instance for [a-b], [a-c], [b], [b-c]. *)
Example C04_twice_nonvacuous :
  let ranges := [(97, 99); (97, 100); (98, 99); (98, 100)] in
  ssorted ranges /\ remove_overlap ranges = Ok [(97, 98); (98, 99); (98, 99); (99, 100)].
Proof.
  split; [|vm_compute; reflexivity].
  simpl. repeat split; intros y Hy; repeat (destruct Hy as [<-|Hy]; [reflexivity|]); destruct Hy.
Qed.

Theorem C04_end_points :
  forall ranges, exists v, remove_overlap ranges = Ok v /\
  forall b, (exists r, In r v /\ (b = fst r \/ b = snd r)) <-> exists r, In r ranges /\ fst r < snd r /\ (b = fst r \/ b = snd r).
Proof.
  intros ranges. destruct (remove_overlap_covered ranges) as (v & E & Hne & _). exists v. split; auto.
  intros b. rewrite <- (remove_overlap_ends _ _ E b). split; intros (r & H).
  - exists r. destruct H; auto.
  - exists r. tauto.
Qed.
Print Assumptions C04_end_points.

(** The classes of all characters but a quote overlap without being nested; with the quotes
    themselves, letters and digits. *)
Example C04_overlap_nonvacuous :
  let ranges := [(0, 34); (0, 39); (34, 35); (35, 1114112); (39, 40); (40, 1114112); (48, 58); (97, 123)] in
  ssorted ranges /\
  (forall a b c, In a ranges -> In b ranges -> In c ranges ->
     fst a < fst b -> fst b < snd a -> snd a < snd b -> fst c <= fst b < snd c ->
     c = a \/ c = b \/ c = (fst b, fst b + 1)) /\
  (exists a b, In a ranges /\ In b ranges /\ fst a < fst b /\ fst b < snd a /\ snd a < snd b) /\
  remove_overlap ranges = Ok [(0, 34); (34, 35); (35, 39); (39, 40); (40, 48); (48, 58); (58, 97); (97, 123); (123, 1114112)].
Proof.
  split; [|split; [|split]].
  - simpl. repeat split; intros y Hy; repeat (destruct Hy as [<-|Hy]; [reflexivity|]); destruct Hy.
  - intros a b c Ha Hb Hc H1 H2 H3 H4. simpl in Ha, Hb, Hc.
    repeat (destruct Hb as [<-|Hb]; [repeat (destruct Ha as [<-|Ha]; [simpl in H1, H2, H3; first [exfalso; lia | idtac];
      repeat (destruct Hc as [<-|Hc]; [simpl in H4; first [exfalso; lia | auto]|]); destruct Hc|]); destruct Ha|]). destruct Hb.
  - exists (0, 39), (35, 1114112). simpl. repeat split; auto; lia.
  - vm_compute. reflexivity.
Qed.

(** The ranges of identifiers, digits and keywords. *)
Example C04_nonvacuous :
  let ranges := [(45, 46); (48, 58); (65, 91); (95, 96); (97, 123); (101, 102); (102, 103)] in
  ssorted ranges /\
  remove_overlap ranges =
    Ok [(45,46); (48,58); (65,91); (95,96); (97,101); (101,102); (102,103); (103,123)].
Proof.
  split; [|vm_compute; reflexivity].
  simpl. repeat split; intros y Hy; repeat (destruct Hy as [<-|Hy]; [reflexivity|]); destruct Hy.
Qed.

(** C35 *)
Theorem C35_option_usize_faithful :
  (forall v, v < 2 ^ 64 - 1 ->
     ou_is_some (ou_some v) = true /\ ou_is_none (ou_some v) = false /\
     ou_unwrap (ou_some v) = Ok v /\ (forall d, ou_unwrap_or (ou_some v) d = v) /\
     (forall A (f : N -> option A), ou_map (ou_some v) f = f v)) /\
  (ou_is_some ou_none = false /\ ou_is_none ou_none = true /\
     ou_unwrap ou_none = Panic PUnwrapNone /\ (forall d, ou_unwrap_or ou_none d = d) /\
     (forall A (f : N -> option A), ou_map ou_none f = None)) /\
  ou_some (2 ^ 64 - 1) = ou_none /\
  (forall v1 v2, ou_some v1 = ou_some v2 -> v1 = v2).
Proof.
  split; [|split; [|split]].
  - intros v Hv. pose proof (ou_ops_agree (ou_some v)) as H.
    rewrite (ou_abs_some v Hv) in H. destruct H as (H1 & H2 & H3 & H4 & H5). auto.
  - pose proof (ou_ops_agree ou_none) as H. rewrite ou_abs_none in H.
    destruct H as (H1 & H2 & H3 & H4 & H5). auto.
  - reflexivity.
  - intros v1 v2 E. injection E; auto.
Qed.
Print Assumptions C35_option_usize_faithful.
