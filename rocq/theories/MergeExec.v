(** * One execution of merging: tables keep the order of their insertions

    [Value.merge] describes every outcome merging may have, whatever the order in which the
    tables iterate.  This file runs it with one order, so that the repository's tests of
    merging can be run on the model (ModelTests.v), and shows that the run is one of the outcomes. *)
From Coq Require Import Permutation.
From Verif Require Import Base Kvp Value.

Definition xbind {A B} (c : mres A) (f : A -> mres B) : mres B := match c with MOk x => f x | MErr e => MErr e end.
Definition xmap {A B} (f : A -> mres B) : list A -> mres (list B) :=
  fix xmap (l : list A) : mres (list B) :=
  match l with
  | [] => MOk []
  | x :: l' => xbind (f x) (fun y => xbind (xmap l') (fun ys => MOk (y :: ys)))
  end.
Definition xput {K V} (eqb : K -> K -> bool) (m l : list (K * V)) : list (K * V) :=
  fold_left (fun m kv => hm_put eqb (fst kv) (snd kv) m) l m.
(** value.rs:795-833 *)
Definition xmerge_into (k : key) (old new : value) : mres value :=
  match old with
  | VObject ms =>
      match new with
      | VObject incoming => MOk (VObject (ms ++ incoming))
      | _ => MErr (ErrorMergingKeys (key_str k) NObject (variant_name new))
      end
  | VBlock b =>
      match new with
      | VBlock incoming =>
          MOk (VBlock match b with Unmerged l0 => Unmerged (l0 ++ entries incoming) | Merged m => Merged (xput labels_eqb m (entries incoming)) end)
      | _ => MErr (ErrorMergingKeys (key_str k) NBlock (variant_name new))
      end
  | _ => MErr (IllegalMultipleEntries (key_str k) (variant_name old))
  end.
(** value.rs:790-836 *)
Fixpoint xmerge_entry (k : key) (v : value) (m : list (key * value)) : mres (list (key * value)) :=
  match m with
  | [] => MOk [(k, v)]
  | (k', old) :: m' =>
      if key_eqb k' k then xbind (xmerge_into k' old v) (fun v' => MOk ((k', v') :: m'))
      else xbind (xmerge_entry k v m') (fun m'' => MOk ((k', old) :: m''))
  end.
(** value.rs:782-839 *)
Definition xmap_new_merged (vmerge : value -> mres value) : list (key * value) -> list (key * value) -> mres mapvalues :=
  fix xmap_new_merged (m : list (key * value)) (l : list (key * value)) {struct l} : mres mapvalues :=
  match l with
  | [] => MOk (Merged m)
  | (k, v) :: l' => xbind (vmerge v) (fun v' => xbind (xmerge_entry k v' m) (fun m1 => xmap_new_merged m1 l'))
  end.
(** value.rs:848-854 *)
Definition xmap_merge_with (vmerge : value -> mres value) (p : mapvalues) : mres mapvalues :=
  match p with Unmerged l => xmap_new_merged vmerge [] l | Merged m => MOk (Merged m) end.
(** value.rs:614-628 *)
Fixpoint xblock_new_merged (mmerge : mapvalues -> mres mapvalues) (m : list (list str * mapvalues)) (l : list (list str * mapvalues)) : mres blockvalues :=
  match l with
  | [] => MOk (Merged m)
  | (ls, p) :: l' => xbind (mmerge p) (fun p' => xblock_new_merged mmerge (hm_put labels_eqb ls p' m) l')
  end.
(** value.rs:404-431 *)
Fixpoint xmerge (v : value) : mres value :=
  match v with
  | VNull | VInteger _ | VFloat _ | VBoolean _ | VString _ => MOk v
  | VList l => xbind (xmap xmerge l) (fun l' => MOk (VList l'))
  | VObject l => xbind (xmap (xmap_merge_with xmerge) l) (fun l' => MOk (VObject l'))
  | VBlock b =>
      xbind (xmap (fun kv => xbind (xmap_merge_with xmerge (snd kv)) (fun p => MOk (fst kv, p)))
                  (match b with Merged m => m | Unmerged l => l end)) (fun l' =>
      xbind (xblock_new_merged MOk [] l') (fun b' => MOk (VBlock b')))
  end.
Definition xmap_merge : mapvalues -> mres mapvalues := xmap_merge_with xmerge.
(** value.rs:643-649 *)
Definition xblock_merge (b : blockvalues) : mres blockvalues :=
  match b with Unmerged l => xblock_new_merged xmap_merge [] l | Merged m => MOk (Merged m) end.

(** ** The run is an outcome *)
Lemma xbind_ok {A B} (c : M A) (x : mres A) (f : A -> M B) (g : A -> mres B) : c x -> (forall y, f y (g y)) -> mbind c f (xbind x g).
Proof. intros H Hf. destruct x as [y|e]; [left; eauto|right; eauto]. Qed.
Lemma xmap_ok {A B} (f : A -> M B) (g : A -> mres B) l : Forall (fun a => f a (g a)) l -> mmap f l (xmap g l).
Proof.
  induction 1 as [|a l Ha _ IH]; cbn; [reflexivity|]. apply xbind_ok; [exact Ha|]. intros y. apply xbind_ok; [exact IH|]. intros ys. reflexivity.
Qed.
Lemma xput_ok {K V} (eqb : K -> K -> bool) l : forall m : list (K * V), hm_extend eqb m l (xput eqb m l).
Proof.
  induction l as [|[k v] l IH]; intros m; [constructor; reflexivity|]. eapply HX_cons; [reflexivity|]. apply IH.
Qed.
Lemma xmerge_into_ok k old new : merge_into k old new (xmerge_into k old new).
Proof.
  destruct old; destruct new; try reflexivity. cbn. eexists. split; [|reflexivity].
  destruct b as [m|l]; eexists; (split; [|reflexivity]); cbn; [|reflexivity]. eexists. split; [apply xput_ok|reflexivity].
Qed.
Lemma xmerge_entry_ok k v m : merge_entry k v m (xmerge_entry k v m).
Proof.
  induction m as [|[k' old] m IH]; cbn; [reflexivity|]. destruct (key_eqb k' k).
  - apply xbind_ok; [apply xmerge_into_ok|]. reflexivity.
  - apply xbind_ok; [exact IH|]. reflexivity.
Qed.
Lemma xmap_new_ok f g l : Forall (fun kv => f (snd kv) (g (snd kv))) l -> forall m, map_new_merged f m l (xmap_new_merged g m l).
Proof.
  induction 1 as [|[k v] l Ha _ IH]; intros m; cbn; [exists (Merged m); split; [exists m; split; reflexivity|reflexivity]|].
  apply xbind_ok; [exact Ha|]. intros v'. apply xbind_ok; [apply xmerge_entry_ok|]. intros m1.
  left. exists m1. split; [exists m1; split; reflexivity|apply IH].
Qed.
Lemma xblock_new_ok f g l : Forall (fun kv => f (snd kv) (g (snd kv))) l -> forall m, block_new_merged f m l (xblock_new_merged g m l).
Proof.
  induction 1 as [|[k v] l Ha _ IH]; intros m; cbn; [exists (Merged m); split; [exists m; split; reflexivity|reflexivity]|].
  apply xbind_ok; [exact Ha|]. intros p'. left. eexists. split; [eexists; split; reflexivity|apply IH].
Qed.
Theorem xmerge_ok : (forall v, merge v (xmerge v)) /\ (forall p, map_merge p (xmap_merge p)).
Proof.
  apply value_map_ind; try reflexivity.
  - intros l H. cbn. apply xbind_ok; [apply xmap_ok, H|reflexivity].
  - intros l H. cbn. apply xbind_ok; [apply xmap_ok, H|reflexivity].
  - intros b H. cbn. apply xbind_ok.
    + change (match b with Merged m => m | Unmerged l => l end) with (entries b). apply xmap_ok.
      eapply Forall_impl; [|exact H]. intros [k p] Hp. cbn [fst snd] in *. apply xbind_ok; [exact Hp|reflexivity].
    + intros l'. apply xbind_ok; [|reflexivity]. apply xblock_new_ok. apply Forall_forall. reflexivity.
  - intros [m|l] H; [reflexivity|]. apply xmap_new_ok, H.
Qed.
Theorem xblock_merge_ok : forall b, block_merge b (xblock_merge b).
Proof. intros [m|l]; [reflexivity|]. apply xblock_new_ok, Forall_forall. intros kv _. apply xmerge_ok. Qed.
