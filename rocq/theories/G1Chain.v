(** The slopes met when (r - 1) (1, 2) is computed by doubling and adding; each is
    checked by multiplication. *)
From Coq Require Import ZArith List Bool.
From Verif Require Import Moduli.
Import ListNotations.
Local Open Scope Z_scope.

Local Notation q := q_modulus.
(** the remainder up to a multiple of q, by an approximate quotient *)
Definition recip : Z := 0x2a523a31311d0253d583a52c34039809d74b2f0bb3e6a604379d76c50cdfc8728.
Definition approx (a : Z) : Z := a - Z.shiftr (Z.shiftr a 253 * recip) 258 * q.
Definition red (a : Z) : Z := let s := approx a in if s <? q then s else if s - q <? q then s - q else s - 2 * q.
Definition vanishes (a : Z) : bool := red a =? 0.
Definition next (l x0 x y : Z) : Z * Z := let x' := red (l * l + (q - x) + (q - x0)) in (x', red (l * (x + (q - x')) + (q - y))).
Definition in_field (x : Z) : bool := (0 <=? x) && (x <? q).
Definition double_ok (l x y : Z) : bool := in_field y && negb (y =? 0) && vanishes (l * (2 * y) + 3 * ((q - x) * (q + x))).
Definition add_ok (l x y : Z) : bool := in_field x && negb (x =? 1) && vanishes (l * (q + 1 - x) + (y + q - 2)).
Fixpoint chain (bits : list bool) (ls : list Z) (x y : Z) : option (Z * Z) :=
  match bits, ls with
  | [], _ => Some (x, y)
  | c :: bits, l :: ls =>
      if double_ok l x y then
        let (x, y) := next l x x y in
        if c then
          match ls with
          | l :: ls => if add_ok l x y then let (x, y) := next l 1 x y in chain bits ls x y else None
          | [] => None
          end
        else chain bits ls x y
      else None
  | _, [] => None
  end.
Fixpoint pos_bits (p : positive) (acc : list bool) : list bool :=
  match p with xH => acc | xO p => pos_bits p (false :: acc) | xI p => pos_bits p (true :: acc) end.
(** the bits of r - 1 below the first *)
Definition r_bits : list bool := pos_bits (Z.to_pos (r_modulus - 1)) [].
Definition slopes : list Z :=
  [0x244b3ad628e5381f4a3c3448e121024631a10fed0e5557e9ed186911225dbdf6;
  0x1d7829358c6b59547bbabadd17120cc967c00abe4b1758e322f990633ee9a75f;
  0xe961a40abfecd3902bb1c8e3868f2f06a8e6111bb6072b6104efcafca7fa6a0;
  0xb98b758c06981308b79a1a019a4b04010da58f80b6f8222a5d89ee7855f6456;
  0xcff828bafb248c839cb800c24b8a47cc46daf2fd5c2f040278d01985527272c;
  0x2256e093565e4984ded667fc6496031dfe0fe653a6ec989265265b1fa025fae6;
  0x251b3035663e7e72c895811a4c9a83698329e3065ade57e3b20c3cf2d1d28208;
  0x1767741ab1f087c8b7880487423379ad3aa38e3758a05b97fe487ba9f6408325;
  0xd8970a1e71aaee536486d81b29eb34edd1e1de9f42f7878047a0c22e27f9f77;
  0x116a74e67ee4848e6f61cb713f5369411c844259efa635a641214f6e33b0fb89;
  0x731dd40d65955f07cdc0097d78e265f5874b4a3690cccadb4545bf193f8edbf;
  0x18b5190dc47a8fc2388d2e7eb1be103087916a1bcd4bac52b9b99019d79be8b4;
  0x2020edce0a784e6ac774151e3160c2382f646fc6c00d139446eece41741a97fe;
  0x1a48faebb3190a6f38f62b206455d444378f35fd1d1681a4b72fd171b3a6a3be;
  0x19185428ef39f8fc71c632d8bf590612fc846ea28669a43c8998439282f440df;
  0x16977aa83d87ad71978b57c89c3d6f10126be63485c6db94afb9eff33f49e493;
  0x27451181e3f178a29d5f8e315b3e6720e921f458016ed9ee9bb7e66ad382e014;
  0xbebc5e4a72832894dce797b023675d94ba4fb3a6a36dc63c5dfee849abad581;
  0x2fc6abf9f34d37080e5e40038ad78f066575d4dbe9f9c72e48ae6e350bf51275;
  0x2629f9ffea8f943cb4b4e71d3e7fcb2cd83d9efe6293ceebd8f3abfa603f17be;
  0x457284b49335a1a09419ee3fc70f2f477fff8854cf020b9e98045a2acb51779;
  0x15a8c261ed8e0f26105550369668c3035610ab4f4031396b3a2038d0fb0605e8;
  0x2fcabbe612d54c1febd318de5172e614e344ca7af1678e6949426b926bf26eb1;
  0x3af2678d9e247c18442a5f6a1884cbea9aeb17f4d97650134a22d9d6428c347;
  0xd58e8d273d42440642e028fa299caf4b6b60f364538a9b92dc8aa9c396a0047;
  0x24441ec661ab06146a0601aeade5f7d92b6bb9d07e6037afeb99c257bfc1e4aa;
  0x1d2293028efff851bfb5c2ac7480450a7c47ee6b548843100b75690b5f17569e;
  0x20cc17eb43866c188f5233aeed0e307fa80887a87554dd1c97e07a2182b3d8d2;
  0x2b6d2fa38bdae61a43e939fd275b5da1bd06f3823e74fed6562942fbd7cac6e2;
  0x26200d5429d515598024bfe610e7878a494e590700cdaa4f6bd465b60019a277;
  0x1c910be39023ddd1d07af27da09ca8ea16a0405b4db5b39088c26eeb6603d62d;
  0x2c8f443c9a6418ba8ee9a0c0e1003ad8d4f1c6e62079b4ffb2f7cd01286a589;
  0xc4662460028411b85bc48be77ceaec94ac833d4f7ce5a6f765bef5e2eb54704;
  0x15ab8ca6917a81e779d3a5204115e7478fb0bf75d1e5c4fa30e2cbb4af4cf27f;
  0x1fb4312a9027361afaff60fd046a03df6ede6503558b3616dcb5e626f6386988;
  0x4ce8d1a5e71424be1747557efd95fdb994b38b6f31f638ffb55b4fce00d71d3;
  0xae8014f6919e0274f0af2e3c37f022fb8f79c46508728d48adf96e03ea145b8;
  0x2f32de11a7f1beb19c3bd7a238726cef7e4b057511b48d9f6084b8148815312e;
  0x27c02623a8ffdba4116d8c720e3e90cd9a374b3bb259c2cb2a40742197743f6f;
  0x194c2176e3f30ab41f6460694f1f8eca03b0bb9747a2fdea7c6dfd21e7996684;
  0x14357e2bc3beb531edcad9c9f25bd2d1efa6e5ee8b5fe44132144cb8f9c7b444;
  0x2ea3308826defe77016240fbdcb96728a201e6e0ddc1d256939c6df3721a05fb;
  0x122da1676330aa5ff6bd0153d912dc244474585db9610289377cd8c58edabef;
  0x230e04bffa386851c1fafa06babc8bbb4234a0c29560cba942414141ad863dfa;
  0x22ef621bf0f9c2d226bae1bdcc8c218a63a249b2c00bf9179303d2a28caf914d;
  0x1878fcc85c1dce91658be516a7432b0270bc1f0a136921644da7d3f8510170c5;
  0x2a8a52af043646d6a23ad106e7d79330e60efdca49a8e79faf2ebe7d18342a1;
  0x17bb8c9e8957d37f901ef4e021c2d48c25514468863656d7bc971e63af5916d7;
  0x1dda5675ccc27bf681af2669823a2e82836679361947ae1669b1dc004e7a6e07;
  0x1442c245686c8b476cc84a5337dee66479a11777716e64f1963f27564cd51172;
  0x150b05bc01631d37449a18ac375dcca7f6be692491ff0a5a18fd0c4c5861bb2d;
  0x26e99335e96fe973cad007b35e14e37b3685b24860f0336d8919996c73a98d2d;
  0x6dc90c5a5be3eeb145e8f7c4101d2954e9e25b9cd6c4b3cb7805f660ac2c0de;
  0x1ee719cbfebcd3259f5a49d3c5099858aad98edf372816c163affc6054973019;
  0x6c143c5e6a1e24183de98f17fb81e13d8975f2befd0997ec872adef94fefac7;
  0x2cd6fc5fae79a080466a68cd70d2801526fb36037be545693e0f552b540af3a2;
  0x1c017a5d7c485bfb268f19d73d42aae5c8d6c621fc19b792dffd79ca4e702eb3;
  0x242128315ae5396c35862786096b149a114e5460da5ad3daff439ce9e7fcc5d;
  0x2e9bddbb1e401b18d7a607ddbc67d4b8d99858e329f95b3331cba4646c0a9472;
  0x8df6f9e9074dc9b4821f9f4319deee252ff56908a024accf49963f4284d7ffa;
  0x29bc6d3376b3e4f403abdcae00f7fb5abccd2ba8ff6d54c8014474987c2d4d5b;
  0x25f52c3ba81ddc7e1fac3cf0eb318176cb77d2e944925f5c15db595f86cf6e46;
  0x2e423aa097f39fd8877f671315d0ac97e254efabb066aa6071ca2dfb19e98e72;
  0x29d98a5e988e09aa9280005d340631578ebc6737fef56ae5f71af717a26cb704;
  0x14cbb6033d9290562d6d8d42132cfd47fd08b2bcdc61542f67df5bd0bff18e2;
  0x24be04367ede3907f9d3cf1d18ebef6c56b78620f037268f9e24e4540192e3dc;
  0x1f5c252e0c6d29fb807b56464c2b3ff32510ab753ea7e769e049f6d8335e46e4;
  0x2904d764ad868a63c312128d5cfac63b2d449bb1e010bc4001ff8423cf2b778;
  0x17b287e59f438bdc4b42cf5a2e8534fb9f9b5fad4db8d397775298d69139a11c;
  0x1dbfb1889fcb8d70cf3aa88c606610534b771910aab8af44358f8136232b040d;
  0x7d0e4de599e89a0bc21bc4d2bd7832bce267b1e16c133d72a651cf3d0618c88;
  0x2cf5a01d89d359a2ae7b4beaef0192270182845d1d56c4427dcaaeedac96b77d;
  0x1be7c36735c142edeed61917515c5e4373acb9307826dc2f53106b72b98150f2;
  0x2a930c420be9d7752987279c1f1505f995771c2c31e9eab166989a2c7a815572;
  0x1237ec0a92764e29f1e2ad621601b8cbf79d5560527ead139762d2040107d2d8;
  0x15e26273249766945affbd32c2dd606877ea793e57a60d0a43ed85f8739bcca1;
  0x1571e7c652b64f803cd992ba6229230a3941a5fe9e4c4b929a7638806c22f791;
  0x2018fc262cd5298575d3796c36a34bcaf4f2b2b440e3f8ef55a865ea082fb1d9;
  0x1f9fa64eefcf029fb9e8694bec446ce594875e2f64f066da77ed299ee5c2495f;
  0x1510801c397503143ba34d09a7a21362685724d9e5e9a5b658a87edfa0160d31;
  0x404c72b21c90840a957499653c28085d4f2776627ade19e07894002f80d0c51;
  0x17879a7b61a17c327d14a24949623da0393bc6202eb3a8e355e66a65d1478f71;
  0x4ce96142a13a74d4549dc4a88a1a52d15bf441a4220156a05855f16b2981b74;
  0x2d8aa5030be6913729bc2a6aaa3c603646309401d8d9f109dbeb8948ec639481;
  0x15efb1e5260a1579df2b950ccf79e5cfa80a02e23ca2ea7bc4625c671d25ed3a;
  0x1b49424c1e3f44afade93dee8aa12ac46dfc0b3809a878d7cb8d8099fa992b21;
  0x290e01a5992e687a1d81911176ca72f991e8c7c3adce7c7c244a3d4cf0c757f8;
  0x41fd67e6acb0ad75113dce319b19e92d68b30d2829dd20b00f5c509b917ced1;
  0xb206a52b063aa38ce840e8e75e1b5536c37c01a24c8f038d710fc7c294fd91;
  0x2238acabc51d290b68cf066704b049faa0e83f514e6796e5930289e896aaf9b1;
  0x1d50b7f61f62aaecf080474a170a18fc8f878bd5abb45fd350628a175d063b95;
  0xf043e86d7c2a00508c2ba11636c96430c4d9a51d3ea7c07f60dc4ad6f0e0e23;
  0xed1375ae600821d4acb9cc855931d7f067976d471e8b52c3abbe3f29537d838;
  0x1a188709e5b05d2241ce5dbf23ade6d5eaeb058705ced2ff50160a10c6e51551;
  0xb610e00597c96c1079176489bb7378a5c49024685c120b102e1efb6bea36d25;
  0x1e1ac59502c903441e65e9b29d57e7ef8cae98bf55e2b3725a377cd1b58b246a;
  0x1e4f85c08fb05978e54a2c6270592522f79527c3996b14a788a7b174dd063287;
  0x979894e03205744b1603e68c1a98a80e4c94e2d008e0ff2d495d3681c41819;
  0x195c5802e045cb7aef280e15a2c84df17a71e166d93733ad8fe39d0f5bbe7d94;
  0x1915e3020ad3da0547c24260c6190f5193dd2a8d1835e6a4ad8f779d3a8496ae;
  0x1f278a36a1a78529848782949af9aef8022a17ef838e20d96df589f656b640c1;
  0x2a6a13f925fd12d91e07f8a654852b677b2788feca31a4f3979e58b7b2c5d60c;
  0x4b258b07efba57d9e516f398d9caa5ea94169478fa74cc864101cb6976976eb;
  0x112b81a89b1c57c0e16c4c90057f8d5409d5a2a63160973e841b331e8bd799a3;
  0x9c5c687f1f3889e11dc89016d0c8d0a5527c09d63b2fee40825e8d30f6dc141;
  0xc20952c118eb9187ccf1c8d33fa608ebef27f0a2334b99e0ab6c536289d2f64;
  0x29c370ecda430fbf5cb240ac975f5b6716f3523eccbd169ddf2d12df6eb22f2a;
  0xcaadf0a15a58f18b77c537e6c98241a47c4d104d437c1bf39dabf2d43313c6c;
  0x19c1a075bc7593b7c8907a50e511976caaec45e8074f4cdb3f51ddb27012f384;
  0xd1c4ef7baaecceaa58721427001cfdd0086dace0daf045f46e91632887b2259;
  0x112f8842639ac7b70f58ea26773ac9996fccef0ac371e20d69891b6a2557669;
  0x223898e14545ad37ff32aea43ab66a0353126d0f1e2eaf9d1cea8b9bbcd78bad;
  0x9836d84d11be7c719a5e1e74c9e64c03901d04ce676567b978a0acafa57178d;
  0x2b9cb5e2e8af24419825950e9fcd82fe3d81391a267f354f12e49ec843e567c5;
  0x1ed89ecedcc5f612330afa03e44fb778e738e9ede665950d279d97b135710a4e;
  0x100f90727b83e58bef055543d46bd320011f44f2d18bc7f8e534dfa506df12af;
  0xc5d4bf3f7020592cb28f1e1d9f1d0f6dcadb4c2ea7d30b5e0dd20f0cdeb65e9;
  0x2c564adaf7ad7671c9fb08f523a86ddd1e4a104207e9ddd7194f939a1d5b681;
  0x1c73951fd06342aededcca39389cb9b429ccf4af9e4234e15a6f77a650f17085;
  0xb0f8716dae3087b8bcadc1a4daa361b6d48e83e54b0dbb9057e2573520f7b5e;
  0x2c52102203997f74e21ebef4f9855ebbbbf3b059c77108b8043265086ec26628;
  0x2847b34ec409bb674c4f794642c7479de7c66ec8c03d3afa08db4c01e63dbbd3;
  0x11769578116dc06f0c8815fb3d0a31b5419da0f1140dbb0fb8dc7d81cbee1e23;
  0x27a7beb14015700bc15c7155d27576869920fb9092d636b17fe7efe1983adeee;
  0x174ff468b3af799e067bf3c0bfad1a53b9ad031e71c155538271db67125c1ae4;
  0x2d7caa69d7a1116d8189a4730ae3df7c95e6b81669dc9b6f1a220d195c110444;
  0x2d0030544527548c1417669681f6c2a3cb0fd45cd7462af3837a3f96ea78ef79;
  0x1c4cd1c2441ce47c4f00dae4c1140fa78979fd3876250ca4b837359e60738631;
  0xe45e87b05b2269ba9eb8f94db1c0d4a2435c52d7e78bc8dc6576ed6446055fa;
  0x2414874c99f43fe495655d9a6f8ff5becb05bd3831f93a4b8c77a897d81fe92c;
  0x13ccc983156e70e4a6008bf7de3062ed1c94e8fa00eb63ceab61d6bddf15f080;
  0xfd96d3981d2353a23fa9147cdd2d1034a067430135caf1bd6da7a12937ea35a;
  0x14458cab61a97566f2487aab4c163600916409984ef63e54c639a197f58de65b;
  0x15bc91ce76532356c9069b9d241ff98aabf7bbc273934733bccb91ecc95f500d;
  0x22ddee6aa3d487d19122c25e9c02dd175bbd0ede00f2d0c809727c493a61e2a;
  0xd3ddaf67dc486c4f4bdf6f55dab14986d79ad6d20a4dc2e9870d75bb4957d37;
  0xbba0dfca1d05b6f7c9b10dc8031903c6cb0b0265a2f5553092d307c10bfe65f;
  0x2abf7e3ebdf4d35285e41a6234121f962a8382259b28136a42d14f377d60e1ab;
  0x1e658818827a3ea7092f30d3ea6fcf00dd2c4709b3ebe6b02f80377e16760c0d;
  0x1c614d4f7b4945aad1d9a545bc48ef7b3dc682596e9d7dc3ad697b3bbf0acc94;
  0xbe6c6096550c2002770abfb60911248c0d815e2db3165e5eb9c8ce9abb710a0;
  0x22eba99cca7cb917e62dc8b24aab0c033bf39d54ce561484813baf32e7ecd1f4;
  0x995ca4bd7ce0a5fa6982efe7d8cff890089e2191d3e73fde9e94ed58e117221;
  0x8e7975e05925b3ea9202938762244f3012e2660dd5040c8e0ab52444467be1a;
  0x14c0d266abc2aaef0f845aae2a267c37b7d1d56a53a430a3316a13d20a60a4ca;
  0xfc6e0c32524153bafbf9bfc1cb554fbdf67ad99995aa1799720cd6c01ea7642;
  0x20cfba8b50667d6d9d76db6573641a436186c023da874cd0ec8a4fe2a91f6258;
  0x6ebf8a821fe1b5bfe9f61b89a8d6a0dd0750ed492610a121d7c25dce77b1db3;
  0x1af1f4741583610e598125e8d5f1f36292d4c6078fb6b14d8b50c61d2ce2760;
  0x1317abf2a5faaa4861d9cb31e302174f1564337023cefaa59691280200b73e5c;
  0x1c135104515b102c6a18c747b8197cc6a8c5b20ca560858f9cb6e31fd6e3cd56;
  0x1f6fc1ba4bfdf888b6c29e842e1c73d2e3886cf73b7ba72678ed81fb0d550b8c;
  0x14d2d3a786d52237147cdec7916fde871307b07f338bc1384e17d168c4c3f598;
  0x24264c952e5476ecbe22ddfeb7b01c20a40eca1a2a25c74c1dd170322893643a;
  0x288d2a7f6a7792e708f861ac09a822b63dcfd6e21ddaf97849e9673d0df26350;
  0x1af4a4d2f3b19dd6fd8d198865fa15131d602fc5befea127daa13991488be26;
  0x2dd3a3c8202a63bd021b57aedc3cd6e148121dd4092f9f589cc0c3bb92976194;
  0x945941d38cb95e27bd0363f450925f715d46c7ba124d06f609557e3906e67b3;
  0x20aac072c205c3f1509dfd0983500bb163f7d6bc19d1f6523e0c79dc16103f14;
  0x92d7a7ea13295ffb39f06f8918ec7b14549ac93a148d21d05c40b7b1d4677c0;
  0x14bbd39e00706f30102c044a5319fd6610d47fd37fecd0a0e43adeae86de6aab;
  0x2bd14b9a9bf6f826403a81474f6a3bebf2ab4d943f89f2302fde326986c7d903;
  0x757fb3998139684197442dd7a05ba45dd94fbb59b9c7587465390654dba4f16;
  0x1f78fd5712554ae5a637f617610cef7c6a03179e0aeef8757b461e583af95ce8;
  0x15509de83e0914997be76a3837d8df6479b5c1f2e114d416029660788fae54c7;
  0x12fb40d06cdbd725464482ba649b93c8b55b27800647226122d0e4553b5836a3;
  0x22b244d5130e6b5491234a39fcae46af52071e42830d99953d9584b8ce0df4ed;
  0x2f35e307e1deb915a28daf6619b94c8dd996034133d5eb887e4aa5e85c19345a;
  0x3a70a6550bd73d72d098175dd37630268c08cf597cf1ba0fc0b24c8fd71fa34;
  0x1aa2a499408a855475b7dc24fc0d558bf34774e1e4fa2ff90d217842f1bb6e37;
  0x212ff59a9040536918e5b5123bf7df74c64e55eecc4962f8e37e765321d438c7;
  0x1278f17f5f29a664cc875447e3392d438a9504c0913074ee1b1dd1c42062656c;
  0xa42f8b891bcf0f0a7cefda6496263874bc631ff41948bf8f4ed00aea1013211;
  0x11fac73b8a046fbf95944afe752dfdf1f7fdd7d7801f7a2ed2805799353c86af;
  0x1d61d27be1fc147bf32382b655cb09415db9517676b31892027a43f83d7afe3d;
  0x21ed326a3d7cbd4d723a45044799ba102db5b1aefe8c1e2a9f36b9235572d612;
  0x45db853818fdc70795c86b9cede38871dec14c3d1d55a9eb0aa79631032e862;
  0x25a88106a601d5850b1a022cf599ef00137cac2233f8b3ae09d1284a3de58e3a;
  0x2a04062bcc045c64e3fd401f696fa7970b118930d33735a3c9a463f558adc04d;
  0x180b0ce25a74dc249e485a8bbebd9ee27be601b9dd1fee07e146812f10d37aa3;
  0x2e6ff53d8f2e90e314c3be1af21c38f04a6b5c93e8f9cee21be90ead9691fd1f;
  0x111d39268fc1b34f4e7defe60f707f98e67aecd13e327a58db7eb4ba9e43f564;
  0x19a5ab946a1f10e7618062141bd5c86e5bce73e872cca2d015633cf6f33bf3f3;
  0x14ad2f1c612e62b9278758e38a860c9d42263cc7fe26d2bef045bef4aaf03d57;
  0x2788816394c4d74575a332d396e7cc4778249075226963b2d18b532000113e0c;
  0x302ad7d40982853cc80d039dc1c41e90210583fe530c34ed2eb629c5d6ac70a5;
  0x56e1236874abca11f14edfc8afe616271c227d6168e59c49dffd31c328b6063;
  0x2b1444187c93e610a12176acc197dddbc977066b64d918680b3f9be4ace0ecdc;
  0x3e609e335c86daf80715586c7bf43799070f6ad3162c92e98f2c8c59b1eaac1;
  0x35fe16c92af220c1d1324c5a92c7b8212980a7396a88a94a5a950cec10a8732;
  0x2dca3c2eb5b50ca3f51ed38b302675a88e1a0419af2a0dad73710fcc2873d37d;
  0x5fe489e3d7fffba4a848d1daa8a10744ac891dd35152d6c15fd4619e5619b57;
  0x178dd10db238d3be05a57ca784a7e228234890e2fa835f7401aa2e4151b0c021;
  0xc3f593b3903a7abbf05ceecebf9637cdee1ed4d44ef773666530256bbba702d;
  0x28774400bf419e1dd92889af0e7be5a68b1705ee9c9259c7e691a3a0229c12b3;
  0x11a2329f0d2b4e37116bf5165536c183bf9a29a71986162b6ac7fab813b4147b;
  0x910db00f3522afd168d2c5367c0f3d78d2f2b7ba84fcf82e3a4c1b14d1165a9;
  0x15bf5e58d0fac51debc1c94fbd4eefc586d6b79f8f3f9bcce6beced06cc29ce5;
  0x1d800147ff17701fb677b526566bb9197a8ee964e0657fa3d448ba8d03c03d95;
  0x101d71cf2e884fa04fada61df5dad314a445802117be317c8e3a82a42a08d53c;
  0x21ecdfa932f5d01149b7ba6190f5bebb2dbb8987d8c3992c87123b88dbbe214c;
  0x176ee09abdcb8466f50ff813f4cd4ab58e6a2069fb5aab9dd6dba39fb3acd6e6;
  0x183c7f56180ec5c3d52bb39e070c77ab8642e678109b4f37b0a1e1437a6258bf;
  0x357822816269a44c06c671073b2e8d170af17f9746675af2606a5059da83c39;
  0x26a7c8e556132d0db44b1d47253a85c34ec6714ef7e5e82707fa6d7ca6e15240;
  0x22dfd592ca8d4423cbfe3ee9f8673c858b5b4fff2e1ec059745765d3f5b87563;
  0x2bc6ac7170b4450ef9c928dd5f36ff6ed6bbf210ceaa47e650d320e7b1598886;
  0xa19a0d34088177bd5e39bed6cb88a7b4bfbdf75d6bba4e08145cbd6c4f4c594;
  0x6069e8395bbe44247dfc6e78011ce1472d7a56f55d65b85032bfaec13ef46f6;
  0x66718e4349d7ef4a6a343e43512a54934bbe39132b0a818c3a994b7b09407d7;
  0x45c8a3961e8f0e435228fa47122046c65da6b8c7d7560874bdff2587a22b637;
  0x144d7d1801d7fc37a87497db8fb4526f938a0627fd4e6ead3b673229c6359f2;
  0xf9311c2e70426da42826bd7224526a4ecfc996bae985879f5b3c279ebe8c2c0;
  0x303769dd8eab6c29ee2c76b0d2c79ce1c7153c414e5c8829b22ca4c934eccb0a;
  0x29b5a6479253145ec6fa71b38a658cee0584e22183245f0f78c78484497e41cf;
  0x8ee39b97844871583f0c5328056206d28606439fe94b203dd62538b1d9739a1;
  0xadc8e12601996e2c755bad097f6814f539072314d2ae99e4c9f90b4498f2035;
  0x167c6c75c9e42c5bb3aea341a5548b08ace9566752844c3ddd4e16ecef903540;
  0xf2ee9db8e046082458146ea32f66575233b4994d330045d4cb133925d6a6b71;
  0x5a8f4d37d8eb541efcb77e6181e4f248249c6759702f2475885090c4564ba63;
  0x23fc3c8f08fbfe2080971ce9fe84fa723d7337c06754e2f670a8b1e250f92652;
  0x12dd77a63c7e0b1d6a0b79a3b48b651af6e6a41c04ba32f31665efdf95d80732;
  0xeca890d649c669cd8938fb69874024a9cd00792f89da49663347cd9ea199ed2;
  0x11c1f0bcdedfd92030d1b7f0a2b600a4e50ba7dce78642e9a9c147dc2bf12e36;
  0x18876ed3ad87048daacabdfc8f8a4af41e8b195e5e8afd483cbf9b9540459749;
  0x854e7aa2e809ddbfa990eb79b5ae447f70330568ed559f2c321622325b8b61c;
  0x12b20effa9ca62db37a3d48cc98e38921cffd178d5c8c4885562ead9b6e84ee3;
  0x1400a96dba905041cfdeab67a98ef3035b1fcfebcaea4205db70f56b6fb39;
  0x205c0bca38980b47a2436bc5da10c6178a88905d2765d1ac14ebbc595487c76;
  0x190606ffac1d3df77055315017e98bb3bc01783e168585a8312515a47ebba56b;
  0x25b1a10f4ea70c015c776da7560f21a85e2e8b12f1dfcf03468c1a4753b67fc5;
  0x25ac1199d83cc25e6c9ecbb4a27ba9670055f47a17c4799e43519b3a2bdee129;
  0x2c8856e030e03a8981c986a8085364103e3ca6457afaa7b2cf26a3ff3926b331;
  0x12ed1bb3eaf3fe93244cf522f91cfb3586266bc1730cfa9762fdcd975a4c8bd5;
  0x94bada0c2a76520ae83bad15a6b1539c34820fd39be33b36548b1a04ab9e21f;
  0x20d60ce70f30baab7e9b31ded3a653158e038acffde784c82cf5e0b21612acfe;
  0xed6698f6fbc5737b9fa27705d725e89042482bb66aba26200cfb9c35cf017b2;
  0x2f019fc0ab126e0ac86377dbab3c550229838191f995c595bca6cca76724b4ce;
  0x212565f9489f19cc55a00789ddfd85b34af62a79b9c7473fd12ac0156f856ac7;
  0x779ab181cb3f25331618812b147112ea5df61a5406d73400119c5b049d122e2;
  0x43597f3f7a1a1ad5a6777395b9d351fc338e617e457ab8b66c82cddaef0727f;
  0x149214e5dbe70587ff0f61a06c13db757c70cd62c486461412008aa7823f3827;
  0x9a3bef7682411722160861e27007b8de5185ce265fc29c789be5762218e0ebb;
  0x270d5efb825ba55c430b5c5a71f84c4912dba0405ba82bd967d0a3ccf6c61128;
  0x11ef6256e74fe9486758d914a212ff7df3fc6bff6327ff46cdefd553bebeab5b;
  0xca6ec11569883a7392892c6d6e555054e785601c8689eef0a84ae8a60319fdf;
  0x15404a3228833406d771218b4d90ba518be69f67a5cef9319c04a059cd95a180;
  0xc617373f1729c175354694d96b268fed7293c767561033cfbceaa382edc70f;
  0xde80c597506ffb08aa26263f261d951ea7a8fa3313b99cc0a3c41ca6c187aca;
  0xda89237fca881f49b91a713ce8400dc92ba7f4c7c54eea400009e5efc46f682;
  0x325be9a5a6497ecfa16e0e98f971efe43f21d158001aaaa735746664b692a93;
  0x28f23c488fcbf49f452eaf5da5e3526da766fc36d8cbb0ae7afe545eba5a661a;
  0x461c85d4404909e4658638684f3a126d899dbfda76618b721cc90c5744de3c6;
  0x19b4e8b6a36851d8511d22be57d260e7cfe283c3a3094053baddfbe0f7202f51;
  0x29653b3ac75cfbb0d11343246f2b263d6937bf4674f55d0b8c2769f3cb743697;
  0x1f32f77d3ff5368c1f4d7788afbc139230e99f499126bfc54d2bab562e4ab7f9;
  0x1a9016f2fd92266d1b45e5291954ee7f74026f5df250054cb00f67ed6498b903;
  0x1801a93613c153016e2ae6bef60796bb67866f65ae2de9259db128799484bf17;
  0x2df04c2dc9f1dd6a0b296b8da1c797148f46ed79b251290cf6a479d6c7b2a460;
  0x13cbdf52a74e874e5de6d76341eea0e4c6dfaaf76c2c08f4300327ec10a861a2;
  0x2f1a8d7f619caacd1e7f3109063fa15cfc7550b9e3a7f68c985e1cdd32b1c1c1;
  0x1ed6a5b2d0f7e34a7f771c4051ab90ecfbbe1eccd3e9580d91d41805bc02aa71;
  0x3f90020ef50ef013183acfa6cbdc41fdddf6464616279bd987de482ab6d8116;
  0x17b2670480f64263c86f40787394ef11bada6e427a6dbdbe8a5b0ca3379c68b6;
  0x1a10f99b8eb7335dee5cb3987e197b0b1136a3d9613347b91933c8d60b79b440;
  0x2821929916f7c0550a8820159d9527079e75b13e35f50fe129f7ccd13491b04e;
  0x2afb6cd8dd4174876fb647624eb274663b462d4f1ff555b5a8f7d8d1b3a4b9f;
  0x1737025e1ad137f6fcded04796fe7fb752ac3b87651968281128aa35c04b1901;
  0x17fb9f70320653fbf75b45c642f62e505fa7bb68479573da6587003b01688473;
  0x16a1c092d3cee3b45250b2840cf56119492a00075dc039fc3f2794accfa8bdc4;
  0x978ed0826091a030ff17d66de9b007728f79c70e79dcf6c1bec95a922760822;
  0x24fba357ab49d6fcd8778a36d82f44d33f0028512356b6880a935c20f529a9d3;
  0xdbd316a4401ffdabeed844c21edd205758e37604aa6cb722f6e478b9c87bec6;
  0x1a7cc0a22457ed9f6ed2e7f7677bc3bb4dab9fd2e9600347f1c6ceaab678e1da;
  0x193a759517edbed75ed67b286cfa075921211c5b7157414902a0405ea5c5223e;
  0x10ca57f24fbc63ef305c268664f707ae710c594e95ca6f6252d80cd0aca11101;
  0x1b503f719c0d232446354b81dedee24efb12ce0dabe4e5e4028072abeac7b9eb;
  0x2ae1494815b55d8c1295bef470e30f9c3b9d5ecde6954d2d5bdb407324c81c9e;
  0x6316f89b2a683cbe0e2d836fc7e8b40bf57834c882ebfd72355300ca3dc52de;
  0x1a473f7596853a2cc622abf7803b11cb56d90aa007ca3b1fbb75f9987f3a2093;
  0x112ac69b25aedf1c57bfdd858a633c64e213bed6571c2d8d16be4384adbad91e;
  0x25591440398d763199a300b58ebf59b583b270025f858d432008867667ee1924;
  0x1425f8c8e67d7b1124e9ebc9e66698196ba235bfda0b288b7c1f8036626a2733;
  0xeef78f971f44ce0fe195bbfdb78d6e742b0c3b689021fd08c3c9b98345c92c0;
  0x16ef2108d833d4701e0af8711ce3d35fc07ef08a3b05501f1182dbf79f977622;
  0x14a235b5fc6daf089defaf9bbe6928f0e9f0a5b93b91587108754895235a79c;
  0x28cb70d401b09f03851f69929421b11ef94dec3cbf2ef77770d2bcaa44945047;
  0x2126fa8f847daadc2709260cb3dee099a1d1fd49306040c1b76f4b0a9027312f;
  0x26ad428a8400c1cb8b07b2c320bdf0f5f5d93a089343f18fa67a79548deeac40;
  0x14d46a55ed85569eca73126bad7eb3021c2b311039c759885467756db98e2405;
  0xc1019f9ad28eff79ae4c79aaca8048cb7ec99928ae3b321a68d1364f8ba9ea5;
  0x2b909321aa6617f19f757ff5efdfb6972f49977555d558fdbbcb5dcd515bc0ac;
  0x12be5486802680c1db2af4107bd4b7158dcc7d8a093d0156d65b89eea9e917e;
  0x13c165a9c16d6c470fa330cd793bccef56fae7f36394677db91df486b668e497;
  0x185dcf5a05ec1ef404d97cb5308e5473ce87daa76f2954384228e890133dbea5;
  0xf6e90f678bf7b860aa218e4366ac0bdf3dfe764d820a2b01fc6b68faec23fb8;
  0xd14cd04acc48f4a626bb0c82df2546bd40a1546a4ffe1904838ac0cc536923b;
  0x168f7bede7dff322591979f2a032fa4a72e40270fa658fe7da5576732f74fd0;
  0x41b5bf39dcc6f483100b7cc1318d16c912438123be41faf27f123216a5a7dd2;
  0x85a968a080100e1c8ec4fef9eb12d106e76d4191d3043c596a3b7d32cbfb521;
  0x2b65474a6068663b17d0ff16451020a1f962ba0578c14ef8b06596ea500bed49;
  0xdf52e762496fa7d1623bcbf6342c29e4d3d07114e786b29bc67a27b29855d17;
  0x46d94197ac63f443bf5d56b89e8ad376348aac3e73812ba564286c93f7e7fdb;
  0x81ef7f8edea1eb6844b58914201c309c85996704c0d8749a36e3c71e250c64f;
  0x2bce751a66a0c1d0e94fd5d8411c8b8c8a0d66c926257980500866c8eaeb101f;
  0x25213f86b5b4e75604570a5f56215b8c29750e1b2ea550fea08bd047e8b28bd9;
  0x25bcc5f50aeda3288d964b633677a125d81beca89f9d9f0b9e6d8dae7b3aeaaf;
  0x8c47adb37d932755efd1f77486e63d7d467c197fe4c80ec201876905037e47e;
  0x2df6f16ad800f5ff58541fddf596a5c1ff20b5d5d7db45df6dc6143bf7c52a24;
  0x13ca70ed1693f62710c0bb4f82cbdb564f56d575e64f4a56758ffa257fc3bf8d;
  0x5085192402d00d88c817eaa927e8b85a742206abf3092d25f279643c7bc63a5;
  0x300729d4dfec0e9368061084271ee3ff6f7b65d5dbd6d145cffa1c17e8619f01;
  0x22755096af8bcf41561f4efd833b9327a99058ea3df1a007846cb4150cfe0c92;
  0xcd215c14273a25f3419a6268f903e3f73a2405de2391452924f2a6d74787de5;
  0xf6a4f273b950b0266bb87cf4a7675d4597f3708378d3814bdff7a19f443351f;
  0x8b026eded330832eb1ced5b09d323467f5733086387527b1b82a8343257869a;
  0x2d66404c74a46fc6330fc398be410a96411aa572394cb536b1442da06af327fc;
  0x1bf8c7bb94720af4b6a8289ac784d2dd2dfbf24e813832e54ade9c38358529ab;
  0xe5ee4161d20dc899c24ba12f40fd727772330deb68b8c9dbc73053845d99441;
  0x13ae82990bd0df9cda83e73b46e9ede241e7eb9cb7d46af11bec80dd7f636aa6;
  0x183faff29bc7234ce4ff36a1959e56f3028c5c8e843d3d9362f81aa775f5db8b;
  0xdb35c0a13d22d6378aa846b3f54b7a703f8c9daf758393cbeb125ae3e421567;
  0xf3de17fe1fd024ea26ea892062d7b7b87dacf42dec66a2ea7160b01826fe463;
  0x17605fd26c5e866723be1f5ce757ab9f2245950d4b06a8bd3f12f3e1e4e68829;
  0x273021a2296aee1d39768189b1051434b15d423a98cb38ec49d5e97dad435ace;
  0x240abf878ffcafcd1c936a1d668c4b9210f7c3f73ef5a4f62bd5925182f34617;
  0x22b67915c02d345abcdf4ab250c21047b4a072502b391aa3cbf6e0480453f0e;
  0x18209d4738ccdd095d0af05ca53336a11ad0552e9497bf7240437b1afb7af20c;
  0xc6d5cc2c25578cbfb5a6057c0e876fb6ba0cdd4d7b40f8ac5384d186d7d815d;
  0xd6ee858e4f024ed74c8811fd6729d56d27e475eeb92e59c4a5ef09258999379;
  0x265094859027fa50fbb51792d7192618522c54336e097694028e70157d7b1135;
  0x1d88921a8368d4ee73ad10a0355afff796ca74747fd1dbaa1e09ee1ab0d11aa4;
  0x2fc5d77504ec52cf143ce624bae3fb43552c8dca9a53fce0ac0f5427037d71fc;
  0x2d1706a6e9bd484093e09ae8129e36c07ffee3204614e19f14e3d278f506b016;
  0x12d801024879727ba748aff9d9291f7516d0094dd6f7909288c155942730bf72;
  0x2cff03b756b0e5c41f60a6b9b91b97d9ad0540d758f3ced0cff3628b0a83e3b2;
  0x22673e958c1e673562ac71786bb884d96c2b41982757d275a1ecec69c9f934dd;
  0x8d5d1c800dc32d43d15055167e25801cff3b7122659e23da1334715fd3dc2ae;
  0x896c414dd3e0803d8a35dabc672c9541deb64be0a2485bf8436607ccf393d57;
  0x233dc8e6ea4b1280f9a1c57aaa14e3ac2719189926e064ca6e9b21e0e7c431dc;
  0x18e1ff19fec26b66704e65d395fb336b13e9fa00bcc14443000c2432f3fde11a;
  0xa2f22ba685419e652fa540833d16692ee881ca6b7180a3cb871b33ac1590ed7;
  0x4776eff38681dea6005b3ec653f20cdee4dc51a9f9812180656918e93c907f3;
  0xe879c89382024ec9abe14a5fdb25aff73930d02f94c161586564731042e6240;
  0x923a1c39eb534e5e21c8fdd5e64aed15a8a134b3d3106c008e74f5159082cb7;
  0x1998226536e8378b4aa78829ae2a70367ecfeeef92b0832b00db592053517623;
  0x913318719a23f5d74dbeac8e020ccf7333f4cb0b4c955e4a7d0aed61714adc4;
  0x71a0606656bd5d073d6dcf93c85e95ae6f6ab25db7ef1191f9cced853323de2;
  0x17b3c8d7a71d652e4a2a6a32036c7530294747b9837130cdead0a329e484a557;
  0x19d0d0fed800dfed752986167c5f873013011269a177cac9331e51bd73d4e5ab;
  0x266d8a1ede905128be4166cf5d7be87904123f456a04533ce315af2d4fa6bffc;
  0x1df8fcb700d2697efcbecd3051bea54b885fc00fd54077df3637bb19f7608fbb].
Lemma chain_ends : chain r_bits slopes 1 2 = Some (1, q - 2).
Proof. vm_compute. reflexivity. Qed.
