(** Generic list lemmas. *)
From Coq Require Import List NArith ZArith Bool Lia.
Import ListNotations.

Lemma firstn_app_exact {X} (a b : list X) n : n = length a -> firstn n (a ++ b) = a.
Proof. intros ->. rewrite firstn_app, Nat.sub_diag, firstn_all, firstn_O, app_nil_r. reflexivity. Qed.

Lemma firstn_app_le {X} (a b : list X) n : n <= length a -> firstn n (a ++ b) = firstn n a.
Proof.
  intros H. rewrite firstn_app. replace (n - length a) with 0 by lia.
  rewrite firstn_O, app_nil_r. reflexivity.
Qed.

Lemma firstn_app_ge {X} (a b : list X) n :
  length a <= n -> firstn n (a ++ b) = a ++ firstn (n - length a) b.
Proof. intros H. rewrite firstn_app, (firstn_all2 a) by lia. reflexivity. Qed.

Lemma skipn_app_exact {X} (a b : list X) n : n = length a -> skipn n (a ++ b) = b.
Proof. intros ->. rewrite skipn_app, Nat.sub_diag, skipn_all. reflexivity. Qed.

Lemma skipn_app_ge {X} (a b : list X) n :
  length a <= n -> skipn n (a ++ b) = skipn (n - length a) b.
Proof. intros H. rewrite skipn_app, (skipn_all2 a) by lia. reflexivity. Qed.

Lemma skipn_app_le {X} (a b : list X) n : n <= length a -> skipn n (a ++ b) = skipn n a ++ b.
Proof. intros H. rewrite skipn_app. replace (n - length a) with 0 by lia. reflexivity. Qed.

Lemma firstn_firstn_min {X} (l : list X) a b : firstn a (firstn b l) = firstn (Nat.min a b) l.
Proof. apply firstn_firstn. Qed.

Lemma firstn_skipn_comm' {X} (l : list X) a b :
  firstn a (skipn b l) = skipn b (firstn (b + a) l).
Proof. apply firstn_skipn_comm. Qed.

Lemma skipn_skipn' {X} (l : list X) a b : skipn a (skipn b l) = skipn (a + b) l.
Proof.
  revert l; induction b as [|b IH]; intros [|x l]; rewrite ?Nat.add_0_r; try reflexivity.
  - rewrite !skipn_nil. reflexivity.
  - cbn [skipn]. rewrite Nat.add_succ_r. cbn [skipn]. apply IH.
Qed.

Lemma nth_error_split_eq {X} (l : list X) k x :
  nth_error l k = Some x -> l = firstn k l ++ x :: skipn (S k) l.
Proof.
  revert l; induction k as [|k IH]; intros [|y l] H; try discriminate.
  - injection H as ->. reflexivity.
  - cbn [nth_error] in H. cbn [firstn skipn app]. f_equal. apply IH, H.
Qed.

Lemma nth_error_firstn_lt {X} (l : list X) n k : k < n -> nth_error (firstn n l) k = nth_error l k.
Proof.
  revert n l; induction k as [|k IH]; intros [|n] [|x l] H; try lia; try reflexivity.
  cbn [firstn nth_error]. apply IH; lia.
Qed.

Lemma nth_error_skipn' {X} (l : list X) n k : nth_error (skipn n l) k = nth_error l (n + k).
Proof.
  revert l; induction n as [|n IH]; intros [|x l]; try reflexivity.
  - cbn. destruct k; reflexivity.
  - cbn [skipn Nat.add nth_error]. apply IH.
Qed.

Lemma removelast_firstn_pred {X} (l : list X) n :
  n <= length l -> removelast (firstn n l) = firstn (n - 1) l.
Proof.
  intros H. destruct n as [|n]; [reflexivity|].
  rewrite removelast_firstn by lia. f_equal; lia.
Qed.

Lemma skipn_S_tl {X} (l : list X) n : skipn (S n) l = tl (skipn n l).
Proof.
  revert l; induction n as [|n IH]; intros [|x l]; try reflexivity.
  cbn [skipn]. rewrite <- IH. reflexivity.
Qed.

Lemma forallb_map {X Y} (f : Y -> bool) (g : X -> Y) l :
  forallb f (map g l) = forallb (fun x => f (g x)) l.
Proof. induction l as [|x l IH]; cbn; [reflexivity | now rewrite IH]. Qed.
