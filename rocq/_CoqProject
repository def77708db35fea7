-Q theories Verif
theories/Base/Outcome.v
theories/Base/SMap.v
theories/Model/Arena.v
theories/Model/Auxiliaries.v
theories/Model/Binary.v
theories/Model/BinaryNetwork.v
theories/Model/Contract.v
theories/Model/Core.v
theories/Model/Cow.v
theories/Model/Edge.v
theories/Model/EdgeOperator.v
theories/Model/Elementwise.v
theories/Model/Evolution.v
theories/Model/Exact.v
theories/Model/Exponential.v
theories/Model/Lazy.v
theories/Model/Misc.v
theories/Model/Mpi.v
theories/Model/Names.v
theories/Model/NetworkNew.v
theories/Model/Qr.v
theories/Model/Sampling.v
theories/Model/Schedule.v
theories/Model/Scopes.v
theories/Model/Seeds.v
theories/Model/ShrinkExpand.v
theories/Model/SimpleTensor.v
theories/Model/SimpleUpdate.v
theories/Model/SpinOperators.v
theories/Model/Spins.v
theories/Model/Statistics.v
theories/Model/Svd.v
theories/Model/SvdCut.v
theories/Model/Symmetry.v
theories/Model/Text.v
theories/Model/Timer.v
theories/Model/Trace.v
theories/Model/Transpose.v
theories/Proof/AddressFacts.v
theories/Proof/ArenaFacts.v
theories/Proof/AroundTensor.v
theories/Proof/Associate.v
theories/Proof/AssociatePlain.v
theories/Proof/BinaryFacts.v
theories/Proof/BinaryLattice.v
theories/Proof/BinaryNetwork.v
theories/Proof/BinaryTables.v
theories/Proof/BinaryTensor.v
theories/Proof/BondTools.v
theories/Proof/BondUpdate.v
theories/Proof/ChargeFacts.v
theories/Proof/ConjugateContract.v
theories/Proof/ConjugateFacts.v
theories/Proof/ConstructFacts.v
theories/Proof/ContractNames.v
theories/Proof/ContractPlain.v
theories/Proof/ContractSym.v
theories/Proof/CopyLoopFacts.v
theories/Proof/CoreFacts.v
theories/Proof/CowFacts.v
theories/Proof/CowMain.v
theories/Proof/CowSelf.v
theories/Proof/CowStep.v
theories/Proof/EdgeOperatorFacts.v
theories/Proof/EdgeOperatorMain.v
theories/Proof/ElemFacts.v
theories/Proof/ElementFacts.v
theories/Proof/ElementwiseFacts.v
theories/Proof/EnergyTerms.v
theories/Proof/ErgodicFacts.v
theories/Proof/EvolutionEigen.v
theories/Proof/EvolutionFacts.v
theories/Proof/EvolutionKeeps.v
theories/Proof/ExBinary.v
theories/Proof/ExExact.v
theories/Proof/ExFilled.v
theories/Proof/ExObserve.v
theories/Proof/ExQr.v
theories/Proof/ExSampling.v
theories/Proof/ExSvd.v
theories/Proof/ExTensors.v
theories/Proof/ExTerm.v
theories/Proof/ExText.v
theories/Proof/ExactApply.v
theories/Proof/ExactMain.v
theories/Proof/ExactObserve.v
theories/Proof/ExactValue.v
theories/Proof/ExactVector.v
theories/Proof/ExchangeFacts.v
theories/Proof/ExpOperator.v
theories/Proof/ExpTensor.v
theories/Proof/ExpWalk.v
theories/Proof/ExpandFacts.v
theories/Proof/ExponentialFacts.v
theories/Proof/FactorFacts.v
theories/Proof/FactorSides.v
theories/Proof/FermiSwap.v
theories/Proof/FlipFacts.v
theories/Proof/GemmFacts.v
theories/Proof/GradientLimit.v
theories/Proof/GradientRun.v
theories/Proof/GridSum.v
theories/Proof/GroupFacts.v
theories/Proof/Heisenberg.v
theories/Proof/HeisenbergRun.v
theories/Proof/HotContract.v
theories/Proof/IdentityFacts.v
theories/Proof/KernelFacts.v
theories/Proof/LatticeAmplitude.v
theories/Proof/LatticeLife.v
theories/Proof/LatticeTensor.v
theories/Proof/LazyFacts.v
theories/Proof/LegFacts.v
theories/Proof/LineMath.v
theories/Proof/LineTensor.v
theories/Proof/LinearFacts.v
theories/Proof/LoopFacts.v
theories/Proof/MarkovErrors.v
theories/Proof/MarkovFacts.v
theories/Proof/MatrixFacts.v
theories/Proof/MeasuredFacts.v
theories/Proof/MergeFacts.v
theories/Proof/MergeNames.v
theories/Proof/MergeSplit.v
theories/Proof/MpiFacts.v
theories/Proof/MultipleFacts.v
theories/Proof/NamedOperator.v
theories/Proof/NamesFacts.v
theories/Proof/Network.v
theories/Proof/NewFacts.v
theories/Proof/NormFacts.v
theories/Proof/ObserveFacts.v
theories/Proof/OffsetFacts.v
theories/Proof/OneHotFacts.v
theories/Proof/PairContract.v
theories/Proof/PairSum.v
theories/Proof/PlainElem.v
theories/Proof/PlainFacts.v
theories/Proof/PlainTools.v
theories/Proof/QrKernel.v
theories/Proof/QrProps.v
theories/Proof/QrTensor.v
theories/Proof/RegroupFacts.v
theories/Proof/RenameFacts.v
theories/Proof/ScalarOpFacts.v
theories/Proof/ScalarQ.v
theories/Proof/ScalarZ.v
theories/Proof/ScheduleFacts.v
theories/Proof/ScopesFacts.v
theories/Proof/SeedFacts.v
theories/Proof/ShrinkCharges.v
theories/Proof/ShrinkFacts.v
theories/Proof/SideCut.v
theories/Proof/SignFacts.v
theories/Proof/SimpleUpdateFacts.v
theories/Proof/SpinAlgebra.v
theories/Proof/SpinAmplitude.v
theories/Proof/SpinFacts.v
theories/Proof/SpinGradient.v
theories/Proof/SpinHistory.v
theories/Proof/SpinOpFacts.v
theories/Proof/SplitAll.v
theories/Proof/SplitFacts.v
theories/Proof/SplitLeg.v
theories/Proof/SplitMerged.v
theories/Proof/SplitNamed.v
theories/Proof/SplitSome.v
theories/Proof/SquaresFacts.v
theories/Proof/StackTensor.v
theories/Proof/StatFacts.v
theories/Proof/StripAmp.v
theories/Proof/StripFold.v
theories/Proof/StripTensor.v
theories/Proof/SumBonds.v
theories/Proof/SumFacts.v
theories/Proof/SvdCutFacts.v
theories/Proof/SvdKernel.v
theories/Proof/SvdMid.v
theories/Proof/SvdProps.v
theories/Proof/SvdTensor.v
theories/Proof/SymmetryFacts.v
theories/Proof/TableFacts.v
theories/Proof/TermMain.v
theories/Proof/TermSite.v
theories/Proof/TermUpdate.v
theories/Proof/TextFacts.v
theories/Proof/TextKinds.v
theories/Proof/TextNames.v
theories/Proof/TextSpectra.v
theories/Proof/TextTensor.v
theories/Proof/TimerFacts.v
theories/Proof/TraceMain.v
theories/Proof/TraceSym.v
theories/Proof/TraceWalk.v
theories/Proof/TransposeFacts.v
theories/Proof/TransposeNames.v
theories/Proof/TransposeTensor.v
theories/Proof/TwoFactor.v
theories/Proof/TwoLegs.v
theories/Proof/WeightedFacts.v
theories/Proof/WeightedMain.v
theories/Proof/WholeFacts.v
theories/Props/C01_charges.v
theories/Props/C02_C03_construction.v
theories/Props/C04_C50_addresses.v
theories/Props/C05_C06_transpose_kernel.v
theories/Props/C07_C10_transpose.v
theories/Props/C11_C13_merge_split.v
theories/Props/C14_C17_contract.v
theories/Props/C15_contract_symmetric.v
theories/Props/C18_C60_trace.v
theories/Props/C19_C49_elementwise.v
theories/Props/C20_C23_misc.v
theories/Props/C24_C25_shrink_expand.v
theories/Props/C26_C62_C63_copies.v
theories/Props/C27_C52_names.v
theories/Props/C28_C48_binary.v
theories/Props/C29_C30_text.v
theories/Props/C31_C32_lazy.v
theories/Props/C33_C34_mpi.v
theories/Props/C35_C36_C53_arenas.v
theories/Props/C37_C38_svd_cut.v
theories/Props/C39_exponential.v
theories/Props/C40_C42_schedules.v
theories/Props/C41_C54_simple_update.v
theories/Props/C43_C57_sampling.v
theories/Props/C47_timers.v
theories/Props/C61_exponential_tensor.v
theories/Props/C64_C67_fermi_contract.v
theories/Props/C68_C70_qr.v
theories/Props/C71_C74_svd.v
theories/Props/C75_C77_lattice.v
theories/Props/C78_C80_spins.v
theories/Props/C81_C82_exact.v
theories/Props/C83_C84_exact.v
theories/Props/C85_C86_terms.v
theories/Props/C87_files.v
theories/Props/C88_associative.v
theories/Props/C89_lattices.v
theories/Props/C90_heisenberg.v
theories/Props/C91_seeds.v
theories/Props/C92_measured.v
theories/Props/C92_spin_algebra.v
theories/Props/C93_gradient.v
theories/Props/C94_errors.v
theories/Props/C95_evolution.v
theories/Props/C96_bilinear.v
theories/Props/C97_conjugate_contract.v
theories/Props/C98_overlap.v
theories/Props/C99_squares.v
theories/Spec/Binary.v
theories/Spec/Blocks.v
theories/Spec/Bonds.v
theories/Spec/Charge.v
theories/Spec/Conjugate.v
theories/Spec/Contract.v
theories/Spec/Copies.v
theories/Spec/Energy.v
theories/Spec/EnergyTerms.v
theories/Spec/Evolution.v
theories/Spec/ExactOperator.v
theories/Spec/ExactState.v
theories/Spec/Factor.v
theories/Spec/FermiContract.v
theories/Spec/Fuse.v
theories/Spec/Grid.v
theories/Spec/Lapack.v
theories/Spec/Lattice.v
theories/Spec/LatticeLife.v
theories/Spec/Linear.v
theories/Spec/LocalUpdate.v
theories/Spec/Matrix.v
theories/Spec/Measured.v
theories/Spec/Memory.v
theories/Spec/Nesting.v
theories/Spec/NetworkFile.v
theories/Spec/Operator.v
theories/Spec/Overlap.v
theories/Spec/Pairing.v
theories/Spec/Plain.v
theories/Spec/Reactive.v
theories/Spec/Relabel.v
theories/Spec/Runs.v
theories/Spec/Sampling.v
theories/Spec/Seeds.v
theories/Spec/Sign.v
theories/Spec/Spectrum.v
theories/Spec/SpinLattice.v
theories/Spec/SpinModel.v
theories/Spec/SquareLattice.v
theories/Spec/Squares.v
theories/Spec/Statistics.v
theories/Spec/Strided.v
theories/Spec/Svd.v
theories/Spec/Text.v
theories/Spec/Timing.v
theories/Spec/Truncate.v
theories/Spec/Values.v
theories/Spec/WeightedLattice.v
