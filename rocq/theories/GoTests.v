(** Expectations of the project's Go tests, transcribed by tools/gotests.py, checked on the model.
    These are tests of the model, not proofs of properties. *)
From Verif Require Import Base Utf8 Results Parser Build Syntax SelfData Define GoTestsHead.
Local Open Scope string_scope.

Example parse_test_1 : map check [
  ("A = ""a"" | A ""a""", "aaa", ExpectNode true (Node "A" 0 0 [Node "A" 0 0 [Node "A" 0 0 []]]))] = repeat true 1.
Proof. vm_compute. reflexivity. Qed.

Example parse_test_2 : map check [
  ("A = ""a"" | ""a"" A", "aaa", ExpectNode true (Node "A" 0 0 [Node "A" 0 0 [Node "A" 0 0 []]]))] = repeat true 1.
Proof. vm_compute. reflexivity. Qed.

Example parse_test_3 : map check [
  ("A = ""a"" A | ""a""", "aaa", ExpectNode true (Node "A" 0 0 [Node "A" 0 0 [Node "A" 0 0 []]]))] = repeat true 1.
Proof. vm_compute. reflexivity. Qed.

Example parse_test_4 : map check [
  ("A = A ""a"" | ""a""", "aaa", ExpectNode true (Node "A" 0 0 [Node "A" 0 0 [Node "A" 0 0 []]]))] = repeat true 1.
Proof. vm_compute. reflexivity. Qed.

Example parse_test_5 : map check [
  ("A':alias = ""a"" | A' ""a""; A = A'", "aaa", ExpectNode false (Node "A" 0 3 []))] = repeat true 1.
Proof. vm_compute. reflexivity. Qed.

Example parse_test_6 : map check [
  ("A':alias = ""a"" | ""a"" A'; A = A'", "aaa", ExpectNode false (Node "A" 0 3 []))] = repeat true 1.
Proof. vm_compute. reflexivity. Qed.

Example parse_test_7 : map check [
  ("A':alias = ""a"" A' | ""a""; A = A'", "aaa", ExpectNode false (Node "A" 0 3 []))] = repeat true 1.
Proof. vm_compute. reflexivity. Qed.

Example parse_test_8 : map check [
  ("A':alias = A' ""a"" | ""a""; A = A'", "aaa", ExpectNode false (Node "A" 0 3 []))] = repeat true 1.
Proof. vm_compute. reflexivity. Qed.

Example parse_test_9 : map check [
  ("A = ""a"" | A*", "aaaa", ExpectNode true (Node "A" 0 0 [Node "A" 0 0 []; Node "A" 0 0 [Node "A" 0 0 []; Node "A" 0 0 [Node "A" 0 0 []; Node "A" 0 0 []]]]))] = repeat true 1.
Proof. vm_compute. reflexivity. Qed.

Example parse_test_10 : map check [
  ("AB = ""a"" | ""a""? ""a""? ""b"" ""b""", "abb", ExpectNode false (Node "AB" 0 3 []));
  ("AB = ""a"" | ""a""? ""a""? ""b"" ""b""", "bb", ExpectNode false (Node "AB" 0 2 []))] = repeat true 2.
Proof. vm_compute. reflexivity. Qed.

Example parse_test_11 : map check [
  ("A = ""a"" | (A?)*", "aaa", ExpectNode true (Node "A" 0 0 [Node "A" 0 0 []; Node "A" 0 0 []; Node "A" 0 0 []]))] = repeat true 1.
Proof. vm_compute. reflexivity. Qed.

Example parse_test_12 : map check [
  ("A = (""a""*)*", "aaa", ExpectNode false (Node "A" 0 3 []))] = repeat true 1.
Proof. vm_compute. reflexivity. Qed.

Example parse_test_13 : map check [
  ("a = ""a""?; A = a | a*", "aaa", ExpectNode true (Node "A" 0 0 [Node "a" 0 0 []; Node "a" 0 0 []; Node "a" 0 0 []]))] = repeat true 1.
Proof. vm_compute. reflexivity. Qed.

Example parse_test_14 : map check [
  ("a = ""a""{3,5}", "aa", ExpectFail);
  ("a = ""a""{3,5}", "aaa", ExpectNode true (Node "a" 0 0 []));
  ("a = ""a""{3,5}", "aaaa", ExpectNode true (Node "a" 0 0 []));
  ("a = ""a""{3,5}", "aaaaa", ExpectNode true (Node "a" 0 0 []));
  ("a = ""a""{3,5}", "aaaaaa", ExpectFail)] = repeat true 5.
Proof. vm_compute. reflexivity. Qed.

Example parse_test_15 : map check [
  ("A = ""a"" ""b""{0} ""a""", "aba", ExpectNode false (Node "A" 0 3 []));
  ("A = ""a"" ""b""{0} ""a""", "aa", ExpectFail)] = repeat true 2.
Proof. vm_compute. reflexivity. Qed.

Example parse_test_16 : map check [
  ("A = ""a"" ""b""{1} ""a""", "aa", ExpectFail);
  ("A = ""a"" ""b""{1} ""a""", "aba", ExpectNode false (Node "A" 0 3 []));
  ("A = ""a"" ""b""{1} ""a""", "abba", ExpectFail)] = repeat true 3.
Proof. vm_compute. reflexivity. Qed.

Example parse_test_17 : map check [
  ("A = ""a"" ""b""{3} ""a""", "abba", ExpectFail);
  ("A = ""a"" ""b""{3} ""a""", "abbba", ExpectNode false (Node "A" 0 5 []));
  ("A = ""a"" ""b""{3} ""a""", "abbbba", ExpectFail)] = repeat true 3.
Proof. vm_compute. reflexivity. Qed.

Example parse_test_18 : map check [
  ("A = ""a"" ""b""{0,1} ""a""", "aa", ExpectNode false (Node "A" 0 2 []));
  ("A = ""a"" ""b""{0,1} ""a""", "aba", ExpectNode false (Node "A" 0 3 []));
  ("A = ""a"" ""b""{0,1} ""a""", "abba", ExpectFail)] = repeat true 3.
Proof. vm_compute. reflexivity. Qed.

Example parse_test_19 : map check [
  ("A = ""a"" ""b""{,1} ""a""", "aa", ExpectNode false (Node "A" 0 2 []));
  ("A = ""a"" ""b""{,1} ""a""", "aba", ExpectNode false (Node "A" 0 3 []));
  ("A = ""a"" ""b""{,1} ""a""", "abba", ExpectFail)] = repeat true 3.
Proof. vm_compute. reflexivity. Qed.

Example parse_test_20 : map check [
  ("A = ""a"" ""b""? ""a""", "aa", ExpectNode false (Node "A" 0 2 []));
  ("A = ""a"" ""b""? ""a""", "aba", ExpectNode false (Node "A" 0 3 []));
  ("A = ""a"" ""b""? ""a""", "abba", ExpectFail)] = repeat true 3.
Proof. vm_compute. reflexivity. Qed.

Example parse_test_21 : map check [
  ("A = ""a"" ""b""{0,3} ""a""", "aa", ExpectNode false (Node "A" 0 2 []));
  ("A = ""a"" ""b""{0,3} ""a""", "abba", ExpectNode false (Node "A" 0 4 []));
  ("A = ""a"" ""b""{0,3} ""a""", "abbba", ExpectNode false (Node "A" 0 5 []));
  ("A = ""a"" ""b""{0,3} ""a""", "abbbba", ExpectFail)] = repeat true 4.
Proof. vm_compute. reflexivity. Qed.

Example parse_test_22 : map check [
  ("A = ""a"" ""b""{,3} ""a""", "aa", ExpectNode false (Node "A" 0 2 []));
  ("A = ""a"" ""b""{,3} ""a""", "abba", ExpectNode false (Node "A" 0 4 []));
  ("A = ""a"" ""b""{,3} ""a""", "abbba", ExpectNode false (Node "A" 0 5 []));
  ("A = ""a"" ""b""{,3} ""a""", "abbbba", ExpectFail)] = repeat true 4.
Proof. vm_compute. reflexivity. Qed.

Example parse_test_23 : map check [
  ("A = ""a"" ""b""{1,3} ""a""", "aa", ExpectFail);
  ("A = ""a"" ""b""{1,3} ""a""", "abba", ExpectNode false (Node "A" 0 4 []));
  ("A = ""a"" ""b""{1,3} ""a""", "abbba", ExpectNode false (Node "A" 0 5 []));
  ("A = ""a"" ""b""{1,3} ""a""", "abbbba", ExpectFail)] = repeat true 4.
Proof. vm_compute. reflexivity. Qed.

Example parse_test_24 : map check [
  ("A = ""a"" ""b""{3,5} ""a""", "abba", ExpectFail);
  ("A = ""a"" ""b""{3,5} ""a""", "abbbba", ExpectNode false (Node "A" 0 6 []));
  ("A = ""a"" ""b""{3,5} ""a""", "abbbbba", ExpectNode false (Node "A" 0 7 []));
  ("A = ""a"" ""b""{3,5} ""a""", "abbbbbba", ExpectFail)] = repeat true 4.
Proof. vm_compute. reflexivity. Qed.

Example parse_test_25 : map check [
  ("A = ""a"" ""b""{0,} ""a""", "aa", ExpectNode false (Node "A" 0 2 []));
  ("A = ""a"" ""b""{0,} ""a""", "abba", ExpectNode false (Node "A" 0 4 []))] = repeat true 2.
Proof. vm_compute. reflexivity. Qed.

Example parse_test_26 : map check [
  ("A = ""a"" ""b""* ""a""", "aa", ExpectNode false (Node "A" 0 2 []));
  ("A = ""a"" ""b""* ""a""", "abba", ExpectNode false (Node "A" 0 4 []))] = repeat true 2.
Proof. vm_compute. reflexivity. Qed.

Example parse_test_27 : map check [
  ("A = ""a"" ""b""{1,} ""a""", "aa", ExpectFail);
  ("A = ""a"" ""b""{1,} ""a""", "abba", ExpectNode false (Node "A" 0 4 []))] = repeat true 2.
Proof. vm_compute. reflexivity. Qed.

Example parse_test_28 : map check [
  ("A = ""a"" ""b""+ ""a""", "aa", ExpectFail);
  ("A = ""a"" ""b""+ ""a""", "abba", ExpectNode false (Node "A" 0 4 []))] = repeat true 2.
Proof. vm_compute. reflexivity. Qed.

Example parse_test_29 : map check [
  ("A = ""a"" ""b""{3,} ""a""", "abba", ExpectFail);
  ("A = ""a"" ""b""{3,} ""a""", "abbbba", ExpectNode false (Node "A" 0 6 []))] = repeat true 2.
Proof. vm_compute. reflexivity. Qed.

Example parse_test_30 : map check [
  ("A = ""1""", "", ExpectFail)] = repeat true 1.
Proof. vm_compute. reflexivity. Qed.

Example parse_test_31 : map check [
  ("A = ""1""?", "", ExpectNodes false [])] = repeat true 1.
Proof. vm_compute. reflexivity. Qed.

Example parse_test_32 : map check [
  ("a = ""1""?; A = a a", "", ExpectNode false (Node "A" 0 0 [Node "a" 0 0 []; Node "a" 0 0 []]))] = repeat true 1.
Proof. vm_compute. reflexivity. Qed.

Example parse_test_33 : map check [
  ("a = ""1""; A = a? a?", "", ExpectNode false (Node "A" 0 0 []))] = repeat true 1.
Proof. vm_compute. reflexivity. Qed.

Example parse_test_34 : map check [
  ("a = [a]*; a':alias = a; a'' = a' [^a]*", "b", ExpectNode true (Node "a''" 0 0 [Node "a" 0 0 []]))] = repeat true 1.
Proof. vm_compute. reflexivity. Qed.

Example parse_test_35 : map check [
  ("A = ""a""", "a", ExpectNode true (Node "A" 0 0 []))] = repeat true 1.
Proof. vm_compute. reflexivity. Qed.

Example parse_test_36 : map check [
  ("A = ""a""", "ab", ExpectFail)] = repeat true 1.
Proof. vm_compute. reflexivity. Qed.

Example parse_test_37 : map check [
  ("A = ""a""*", "ab", ExpectFail)] = repeat true 1.
Proof. vm_compute. reflexivity. Qed.

Example parse_test_38 : map check [
  ("A = ""a"" | ""b"" ""c""", "ac", ExpectFail)] = repeat true 1.
Proof. vm_compute. reflexivity. Qed.

Example parse_test_39 : map check [
  ("A = ""a"" | ""b"" ""c""", "bc", ExpectNode true (Node "A" 0 0 []))] = repeat true 1.
Proof. vm_compute. reflexivity. Qed.

Example keyword_test_40 : map check [
  ("
		keywords:kw = ""foo"" | ""bar"";
		symbol:nokw = [a-z]+;
	", "foo", ExpectFail);
  ("
		keywords:kw = ""foo"" | ""bar"";
		symbol:nokw = [a-z]+;
	", "baz", ExpectNode true (Node "symbol" 0 0 []))] = repeat true 2.
Proof. vm_compute. reflexivity. Qed.

Example whitespace_test_41 : map check [
  ("
				space:ws = "" "";
				symbol:nows = [a-zA-Z_] [a-zA-Z0-9_]* | ""["" .+ ""]"";
				symbols = symbol*;
			", "a b c", ExpectNode true (Node "symbols" 0 0 [Node "symbol" 0 0 []; Node "symbol" 0 0 []; Node "symbol" 0 0 []]))] = repeat true 1.
Proof. vm_compute. reflexivity. Qed.

Example whitespace_test_42 : map check [
  ("space:ws = "" ""; a = ""a""{3,5}", "a a", ExpectFail);
  ("space:ws = "" ""; a = ""a""{3,5}", "a a a", ExpectNode true (Node "a" 0 0 []));
  ("space:ws = "" ""; a = ""a""{3,5}", "a a a a", ExpectNode true (Node "a" 0 0 []));
  ("space:ws = "" ""; a = ""a""{3,5}", "a a a a a", ExpectNode true (Node "a" 0 0 []));
  ("space:ws = "" ""; a = ""a""{3,5}", "a a a a a a", ExpectFail)] = repeat true 5.
Proof. vm_compute. reflexivity. Qed.

Example errors_test_43 : map check [
  ("a = ""a""", "", ExpectErr 0 0 0 "a");
  ("a = ""a""", "b", ExpectErr 0 0 0 "a");
  ("a = ""a""?", "b", ExpectErr 0 0 0 "a");
  ("a = [a\n]*", "aa
abaa
aa", ExpectErr 4 1 1 "a");
  ("a = ""aa""; A:root = a", "ab", ExpectErr 1 0 1 "a");
  ("a = ""12""; b = ""1""; c:root = a | b", "123", ExpectErr 2 0 2 "c");
  ("a = ""12""; b = ""1""; c:root = a | b", "13", ExpectErr 1 0 1 "c");
  ("a = ""12""; b = ""2""; c:root = a | b", "13", ExpectErr 1 0 1 "a");
  ("a = ""12""; b = ""134""; c:root = a | b", "135", ExpectErr 2 0 2 "b");
  ("a = ""123""; b:root = a | ""13""", "124", ExpectErr 2 0 2 "a");
  ("a = ""13""; b:root = ""123"" | a", "124", ExpectErr 2 0 2 "b");
  ("a = ""12""; b = ""34""; c = ""1"" b; d:root = a | c", "135", ExpectErr 2 0 2 "b");
  ("a = ""12""; b = [a] | [b]; c = a b", "12c", ExpectErr 2 0 2 "b")] = repeat true 13.
Proof. vm_compute. reflexivity. Qed.

Example errors_test_44 : map check [
  ("
		ws:ws = "" "";
		symbol = [a-z]+;
		function-application = expression ""("" expression? "")"";
		expression = function-application | symbol;
		doc:root = (expression ("";"" expression)*)+;
	", "a(", ExpectErr 2 0 2 "function-application");
  ("
		ws:ws = "" "";
		symbol = [a-z]+;
		function-application = expression ""("" expression? "")"";
		expression = function-application | symbol;
		doc:root = (expression ("";"" expression)*)+;
	", "a)", ExpectErr 1 0 1 "function-application");
  ("
		ws:ws = "" "";
		symbol = [a-z]+;
		function-application = expression ""("" expression? "")"";
		expression = function-application | symbol;
		doc:root = (expression ("";"" expression)*)+;
	", "a(b()", ExpectErr 5 0 5 "function-application");
  ("
		ws:ws = "" "";
		symbol = [a-z]+;
		function-application = expression ""("" expression? "")"";
		expression = function-application | symbol;
		doc:root = (expression ("";"" expression)*)+;
	", "a(b))", ExpectErr 4 0 4 "function-application");
  ("
		ws:ws = "" "";
		symbol = [a-z]+;
		function-application = expression ""("" expression? "")"";
		expression = function-application | symbol;
		doc:root = (expression ("";"" expression)*)+;
	", "a()b(", ExpectErr 5 0 5 "function-application");
  ("
		ws:ws = "" "";
		symbol = [a-z]+;
		function-application = expression ""("" expression? "")"";
		expression = function-application | symbol;
		doc:root = (expression ("";"" expression)*)+;
	", "a()b)", ExpectErr 4 0 4 "function-application")] = repeat true 6.
Proof. vm_compute. reflexivity. Qed.

Example errors_test_45 : map check [
  ("
		whitespace:ws           = [ \t];
		number:nows             = [0-9]+;
		symbol:nows             = [a-z]+;
		list-separator          = [,\n];
		function-application    = expression ""("" (expression (list-separator+ expression)*)? "")"";
		expression              = number | symbol | function-application;
		statement-separator     = [;\n];
		doc:root                = (expression (statement-separator+ expression)*)?
	", "f(a b c)", ExpectErr 4 0 4 "function-application")] = repeat true 1.
Proof. vm_compute. reflexivity. Qed.

Example errors_test_46 : map check [
  ("
		space:ws                = "" "";
		symbol:nows             = [a-z]+;
		list-separator:failpass = "","";
		argument-list:failpass  = (symbol (list-separator+ symbol)*);
		function-application    = symbol ""("" argument-list? "")"";
	", "f(a b c)", ExpectErr 4 0 4 "function-application")] = repeat true 1.
Proof. vm_compute. reflexivity. Qed.
