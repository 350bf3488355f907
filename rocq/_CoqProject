-Q theories Verif
theories/Base.v
theories/BaseProofs.v
theories/EuclidModel.v
theories/EuclidProofs.v
theories/PowModel.v
theories/PowProofs.v
theories/ModpModel.v
theories/ModpProofs.v
theories/Prelude.v
theories/PolyModel.v
theories/PolyProofs.v
theories/ModpField.v
theories/Properties_Euclid.v
theories/Properties_Modp.v
theories/PolyBytesModel.v
theories/PolyBytesProofs.v
theories/Properties_Poly.v
theories/RingTac.v
theories/FinFld.v
theories/InterpModel.v
theories/InterpProofs.v
theories/Properties_Interp.v
theories/FftModel.v
theories/FftProofs.v
theories/Properties_Fft.v
theories/MerkleModel.v
theories/MerkleProofs.v
theories/Properties_Merkle.v
theories/CompressionModel.v
theories/CompressionProofs.v
theories/Properties_Compression.v
theories/UtilsModel.v
theories/UtilsProofs.v
theories/Pocklington.v
theories/MimcProofs.v
theories/Properties_Utils.v
theories/QField.v
theories/IrredModel.v
theories/IrredProofs.v
theories/FiniteFieldModel.v
theories/FiniteFieldProofs.v
theories/Properties_FiniteField.v
theories/RationalModel.v
theories/RationalProofs.v
theories/FloatModel.v
theories/FloatProofs.v
theories/Properties_Numbers.v
theories/PrimalityModel.v
theories/BlockchainModel.v
theories/BlockchainProofs.v
theories/Properties_Blockchain.v
theories/NodesModel.v
theories/NodesProofs.v
theories/Properties_Nodes.v
theories/FermatZ.v
theories/PrimalityProofs.v
theories/CommitmentModel.v
theories/CommitmentProofs.v
theories/Properties_Crypto.v
theories/ZkRoundsModel.v
theories/ZkRoundsProofs.v
theories/Properties_ZkRounds.v
theories/MultiModel.v
theories/MultiProofs.v
theories/MultiUtilsProofs.v
theories/Properties_Multi.v
theories/AirModel.v
theories/AirProofs.v
theories/Properties_Air.v
theories/StarkModel.v
theories/StarkProofs.v
theories/StarkVerifyProofs.v
theories/Properties_Stark.v
theories/TypecheckModel.v
theories/TypecheckProofs.v
theories/Properties_Typecheck.v
theories/AdditiveFftModel.v
theories/AdditiveFftProofs.v
theories/Properties_AdditiveFft.v
theories/AprModel.v
theories/AprProofs.v
theories/Properties_Apr.v
theories/ParserModel.v
theories/ParserProofs.v
theories/Properties_Parser.v
theories/ParserTotal.v
theories/Properties_ParserTotal.v
theories/PhiModel.v
theories/PhiProofs.v
theories/Properties_Phi.v
theories/FriModel.v
theories/FriProofs.v
theories/Properties_Fri.v
theories/GaussModel.v
theories/GaussProofs.v
theories/MooreProofs.v
theories/Properties_Gauss.v
theories/SchemeModel.v
theories/SchemeProofs.v
theories/Properties_Scheme.v
theories/ExtMerkleModel.v
theories/ExtMerkleProofs.v
theories/Properties_ExtMerkle.v
theories/FactoryModel.v
theories/FactoryProofs.v
theories/Properties_Factory.v
theories/LogisticModel.v
theories/LogisticProofs.v
theories/Properties_Logistic.v
theories/FqField.v
theories/Properties_FqField.v
theories/Tests_Algebra.v
theories/Tests_Protocol.v
theories/PrintModel.v
theories/Properties_Print.v
theories/IrredCount.v
theories/Properties_IrredCount.v
theories/EuclidMixModel.v
theories/EuclidMixInst.v
theories/EuclidMixProofs.v
theories/EuclidMixInstProofs.v
theories/Properties_EuclidMix.v
theories/MillerRabin.v
theories/MillerRabinProofs.v
theories/Properties_MillerRabin.v
theories/Tests_Misc.v
theories/Tests_Tutorials.v
theories/EuclidCost.v
theories/EuclidCostPoly.v
theories/Properties_EuclidCost.v
theories/CompressionExact.v
theories/Properties_CompressionExact.v
theories/MerkleCommit.v
theories/MerkleSizes.v
theories/Properties_MerkleCommit.v
theories/UtilsCount.v
theories/Properties_UtilsCount.v
theories/MerkleIndex.v
theories/Properties_MerkleIndex.v
theories/StarkSound.v
theories/Properties_StarkSound.v
theories/Properties_InterpRepeat.v
theories/Properties_FftLarge.v
theories/GaussPoly.v
theories/Properties_GaussPoly.v
theories/MultiLenModel.v
theories/MultiSize.v
theories/Properties_MultiSize.v
theories/MultiZeros.v
theories/Properties_MultiZeros.v
theories/Properties_MultiUnique.v
theories/Properties_ReedSolomon.v
theories/Properties_Float.v
