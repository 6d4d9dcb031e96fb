(** Source texts, copied byte for byte from /repo (every double quote is doubled, as Coq strings require). *)
From Coq Require Import String.
Local Open Scope string_scope.
(** src/hblas/cxx/hblas1/copy_swap.cxx, all 103 lines *)
Definition csrc_copy_swap : string := "/*
 *  This file is a part of HAXX
 *  
 *  Copyright (c) 2017 David Williams-Young
 *  All rights reserved.
 *  
 *  See LICENSE.txt 
 */

#include ""haxx.hpp""
#include ""hblas/hblas1.hpp""

#include ""util/simd.hpp""
#include <util/macro.hpp>

#include <cassert>

namespace HAXX {

// Optimized Copy

template <>
void FNAME(const HAXX_INT N, quaternion<double> * const X, 
  const HAXX_INT INCX, quaternion<double> * const Y, const HAXX_INT INCY) {

  // Local pointers for increment
  quaternion<double> * locX = X, *locY = Y;

#if defined(__AVX__) || defined(__AVX2__)

  __m256d x1;

#ifdef _SWAP

  __m256d y1;

#endif

#endif

  // Batch size information
  const HAXX_INT BatchSize = 1;
  const HAXX_INT NBatch    = N / BatchSize;
  const HAXX_INT nLeft = N % BatchSize;

  HAXX_INT i;

  assert(BatchSize == 1); // Need to address increment for AVX512

  // Determine alignment
  const bool XIsAligned = IS_ALIGNED(X,REQ_ALIGN);
  const bool YIsAligned = IS_ALIGNED(Y,REQ_ALIGN);

  const bool isAligned = XIsAligned and YIsAligned;


  if( isAligned )
    for( i = 0; i < NBatch; i++ ) {

  #if defined(__AVX__) || defined(__AVX2__)

      x1 = LOAD_256D_ALIGNED_AS(double,locX);
    #ifdef _SWAP
      y1 = LOAD_256D_ALIGNED_AS(double,locY);
    #endif

      STORE_256D_ALIGNED_AS(double,locY,x1);
    #ifdef _SWAP
      STORE_256D_ALIGNED_AS(double,locX,y1);
    #endif

  #endif

      locX += INCX;
      locY += INCY;

    }
  else
    for( i = 0; i < NBatch; i++ ) {
  
  #if defined(__AVX__) || defined(__AVX2__)
  
      x1 = LOAD_256D_UNALIGNED_AS(double,locX);
    #ifdef _SWAP
      y1 = LOAD_256D_UNALIGNED_AS(double,locY);
    #endif


      STORE_256D_UNALIGNED_AS(double,locY,x1);
    #ifdef _SWAP
      STORE_256D_UNALIGNED_AS(double,locX,y1);
    #endif
  
  #endif
  
      locX += INCX;
      locY += INCY;
  
    }

}; // HBLAS_COPY / HBLAS_SWAP

}; // namspace HAXX
".
(** src/hblas/cxx/hblas1/axpy_scal.cxx, all 214 lines *)
Definition csrc_axpy_scal : string := "/*
 *  This file is a part of HAXX
 *  
 *  Copyright (c) 2017 David Williams-Young
 *  All rights reserved.
 *  
 *  See LICENSE.txt 
 */

#include ""haxx.hpp""
#include ""hblas/hblas1.hpp""

#include <iostream>

#include <util/simd.hpp>
#include <util/macro.hpp>

#include ""hblas/config/types.hpp""



namespace HAXX {

// Optimized AXPY and SCAL operations

template <>
#ifdef _AXPY

void FNAME(const char SIDE, const HAXX_INT N, const _ALPHAF ALPHA, 
  quaternion<double> * const X, const HAXX_INT INCX, 
  quaternion<double> * const Y, const HAXX_INT INCY)

#elif defined(_SCAL)

void FNAME(const char SIDE, const HAXX_INT N, const _ALPHAF ALPHA, 
  quaternion<double> * const X, const HAXX_INT INCX)

#endif
{

  // Local vector pointers for increment
  quaternion<double> * locX = X;

#ifdef _AXPY
  quaternion<double> * locY = Y;
#endif

#if defined(__AVX__) || defined(__AVX2__)

  // Load quaternions
  __m256d x1; // Load space for an element of X

  #ifdef _AXPY
  __m256d y1; // Load space for an element of Y
  #endif
  
#endif

  const HAXX_INT BatchSize = 1;
  const HAXX_INT NBatch    = N / BatchSize;
  const HAXX_INT nLeft = N % BatchSize;

  HAXX_INT i;

  // Determine side
  const bool MulLeft = (SIDE == 'L');

  // Determine alignment
  const bool XIsAligned = IS_ALIGNED(X,REQ_ALIGN);

#ifdef _AXPY
  const bool YIsAligned = IS_ALIGNED(Y,REQ_ALIGN);
  const bool isAligned  = XIsAligned and YIsAligned;
#else
  const bool isAligned  = XIsAligned;
#endif

  // Load scaling factor
#if defined(__AVX__) || defined(__AVX2__)


  #if ALPHAF == DOUBLE

  // alpha = (ALPHA, ALPHA, ALPHA, ALPHA)
  const __m256d alpha = _mm256_broadcast_sd(&ALPHA);

  #elif ALPHAF == DCOMPLEX


  // Quaternion product with a complex number may be thought of as
  // two complex products via tha Cayley-Dickson construction of the
  // quaternions
  //
  // A * (B + Cj) = AB + ACj
  // (A + Bj) * C = AC + B*CONJ(C) j


  auto ALPHA_C = std::conj(ALPHA);

  double *ALPHA_PTR = const_cast<double*>(
                        reinterpret_cast<const double *>(&ALPHA));

  __m128d alphaC      = _mm_loadu_pd(ALPHA_PTR);


  // Precompute the second vector for complex multiplication
  __m128d alphaC_conj = 
    MulLeft ? _mm_loadu_pd(ALPHA_PTR) : 
              _mm_loadu_pd(reinterpret_cast<double*>(&ALPHA_C));



  // SIDE == 'L' -> 
  //   alpha      = (ALPHA_R,  ALPHA_I, ALPHA_R,  ALPHA_I)
  //   alpha_conj = (ALPHA_I, -ALPHA_R, ALPHA_I, -ALPHA_R)
  // SIDE == 'R' -> 
  //   alpha      = (ALPHA_R,  ALPHA_I,  ALPHA_R, -ALPHA_I)
  //   alpha_conj = (ALPHA_I, -ALPHA_R, -ALPHA_I, -ALPHA_R)
  const __m256d alpha = SET_256D_FROM_128D(alphaC,alphaC_conj);

  // (0 -1 0 -1) mask
  const __m256i maskConj = _mm256_set_epi64x(
                             0x8000000000000000, 0,
                             0x8000000000000000, 0 );

  const __m256d alpha_conj = _mm256_xor_pd(
                            _mm256_permute_pd(alpha, 0x5),
                            _mm256_castsi256_pd(maskConj)
                          );

  #elif ALPHAF == DQUATERNION

  // Load ALPHA as is
  const __m256d alpha = LOAD_256D_UNALIGNED_AS(double,&ALPHA);

  #endif

#endif

  for( i = 0; i < NBatch; i++ ) {

#if defined(__AVX__) || defined (__AVX2__)

    // Load X and possibly Y
    if( isAligned ) {

      x1 = LOAD_256D_ALIGNED_AS(double,locX);
    #ifdef _AXPY
      y1 = LOAD_256D_ALIGNED_AS(double,locY);
    #endif

    } else {

      x1 = LOAD_256D_UNALIGNED_AS(double,locX);
    #ifdef _AXPY
      y1 = LOAD_256D_UNALIGNED_AS(double,locY);
    #endif

    }

#ifdef _SCAL

  // X = ALPHA * X or X * ALPHA
  #if   ALPHAF == DOUBLE
    x1 = _mm256_mul_pd(alpha,x1);
  #elif ALPHAF == DCOMPLEX
    __m256d p1 = _mm256_mul_pd(x1,alpha);
    __m256d p2 = _mm256_mul_pd(x1,alpha_conj);
    x1         = _mm256_hsub_pd(p1,p2);
  #elif ALPHAF == DQUATERNION
    if( MulLeft ) x1 = MULDQ_NN(alpha,x1);
    else          x1 = MULDQ_NN(x1,alpha);
  #endif

  // Store X in place
  if( isAligned ) STORE_256D_ALIGNED_AS(  double,locX,x1);
  else            STORE_256D_UNALIGNED_AS(double,locX,x1);        

#elif defined(_AXPY)

  // Y = Y + ALPHA * X or Y + X * ALPHA
  #if   ALPHAF == DOUBLE
    y1 = FMA_256D(alpha,x1,y1);
  #elif ALPHAF == DCOMPLEX
    __m256d p1 = _mm256_mul_pd(x1,alpha);
    __m256d p2 = _mm256_mul_pd(x1,alpha_conj);
    y1         = _mm256_add_pd(y1,_mm256_hsub_pd(p1,p2));
  #elif ALPHAF == DQUATERNION
    if( MulLeft ) y1 = _mm256_add_pd(y1,MULDQ_NN(alpha,x1));
    else          y1 = _mm256_add_pd(y1,MULDQ_NN(x1,alpha));
  #endif

  // Store Y in place
  if( isAligned ) STORE_256D_ALIGNED_AS(  double,locY,y1);
  else            STORE_256D_UNALIGNED_AS(double,locY,y1);        

  #endif

#endif

    // Increment vectors
    locX += BatchSize * INCX;
  #ifdef _AXPY
    locY += BatchSize * INCY;
  #endif

  }

  // FIXME: this only works for a batch size of 1, need a
  // cleanup loop for AVX-512
  //
};

}; // namespace HAXX
".
(** src/hblas/cxx/hblas1/dot.cxx, all 177 lines *)
Definition csrc_dot : string := "/*
 *  This file is a part of HAXX
 *  
 *  Copyright (c) 2017 David Williams-Young
 *  All rights reserved.
 *  
 *  See LICENSE.txt 
 */

#include ""haxx.hpp""
#include ""hblas/hblas1.hpp""

#include ""util/simd.hpp""
#include <util/macro.hpp>

namespace HAXX {

// Optimized Dot Product
  
template <>
quaternion<double> FNAME(const HAXX_INT N, quaternion<double> * const X, 
  const HAXX_INT INCX, quaternion<double> * const Y, const HAXX_INT INCY) {


  // Result quaternion
  quaternion<double> res(0.);

  // Local pointers for increment
  quaternion<double> * locX = X, *locY = Y;

#if defined(__AVX__) || defined(__AVX2__)

  // Load quaternions
  __m256d x1;
  __m256d x2;
  __m256d x3;
  __m256d x4;

  __m256d y1;
  __m256d y2;
  __m256d y3;
  __m256d y4;
  

  // Scratch space
  __m256d t1, t2, t3, t4;

  // Result buffer (zeroed out)
  __m256d r1 = _mm256_setzero_pd();
  __m256d r2 = _mm256_setzero_pd();
  __m256d r3 = _mm256_setzero_pd();
  __m256d r4 = _mm256_setzero_pd();
  
#endif

  // Batch size information
  const HAXX_INT BatchSize = 4;
  const HAXX_INT NBatch    = N / BatchSize;
  const HAXX_INT nLeft = N % BatchSize;

  HAXX_INT i;


  // Determine alignment
  const bool XIsAligned = IS_ALIGNED(X,REQ_ALIGN);
  const bool YIsAligned = IS_ALIGNED(Y,REQ_ALIGN);

  const bool isAligned = XIsAligned and YIsAligned;

  for( i = 0; i < NBatch; i++ ) {
  
#if defined(__AVX__) || defined(__AVX2__)
            
    // Load 4 X and Y elements
    if( isAligned ) {

      x1 = LOAD_256D_ALIGNED_AS(double,locX         );
      x2 = LOAD_256D_ALIGNED_AS(double,locX +   INCX);
      x3 = LOAD_256D_ALIGNED_AS(double,locX + 2*INCX);
      x4 = LOAD_256D_ALIGNED_AS(double,locX + 3*INCX);

      y1 = LOAD_256D_ALIGNED_AS(double,locY         );
      y2 = LOAD_256D_ALIGNED_AS(double,locY +   INCY);
      y3 = LOAD_256D_ALIGNED_AS(double,locY + 2*INCY);
      y4 = LOAD_256D_ALIGNED_AS(double,locY + 3*INCY);

    } else {

      x1 = LOAD_256D_UNALIGNED_AS(double,locX         );
      x2 = LOAD_256D_UNALIGNED_AS(double,locX +   INCX);
      x3 = LOAD_256D_UNALIGNED_AS(double,locX + 2*INCX);
      x4 = LOAD_256D_UNALIGNED_AS(double,locX + 3*INCX);

      y1 = LOAD_256D_UNALIGNED_AS(double,locY         );
      y2 = LOAD_256D_UNALIGNED_AS(double,locY +   INCY);
      y3 = LOAD_256D_UNALIGNED_AS(double,locY + 2*INCY);
      y4 = LOAD_256D_UNALIGNED_AS(double,locY + 3*INCY);

    }


    // Transpose X batch
    _MM_TRANSPOSE_4x4_PD(x1,x2,x3,x4,t1,t2,t3,t4);

    // Transpose Y batch
    _MM_TRANSPOSE_4x4_PD(y1,y2,y3,y4,t1,t2,t3,t4);

    // R += CONJ(X) * Y
    #ifdef _CONJ
      INC_MULD4Q_CN(x1,x2,x3,x4,y1,y2,y3,y4,r1,r2,r3,r4);

    // R += X * Y
    #else
      INC_MULD4Q_NN(x1,x2,x3,x4,y1,y2,y3,y4,r1,r2,r3,r4);

    #endif



#endif


    // Increment pointers
    locX += BatchSize * INCX;
    locY += BatchSize * INCY;
  
  }


#if defined(__AVX__) || defined(__AVX2__)

  // Transpose R batch to proper quaternion storage
  _MM_TRANSPOSE_4x4_PD(r1,r2,r3,r4,t1,t2,t3,t4);

  // Add up the four quaternions
  // r1 = r1 + r2 + r3 + r4
  r1 = _mm256_add_pd(r1,r2);
  r1 = _mm256_add_pd(r1,r3);
  r1 = _mm256_add_pd(r1,r4);

#endif

  // Cleanup loop, multiply one quaternion at a time
  for(i = 0; i < nLeft; i++) {

    // Load a single element of X and Y
    if( isAligned ) {
      x1 = LOAD_256D_ALIGNED_AS(double,locX + i*INCX);
      y1 = LOAD_256D_ALIGNED_AS(double,locY + i*INCY);
    } else {
      x1 = LOAD_256D_UNALIGNED_AS(double,locX + i*INCX);
      y1 = LOAD_256D_UNALIGNED_AS(double,locY + i*INCY);
    }

    // r1 += CONJ(X) * Y
  #ifdef _CONJ
    r1 = _mm256_add_pd(r1,MULDQ_CN(x1,y1));

    // r1 += X * Y
  #else
    r1 = _mm256_add_pd(r1,MULDQ_NN(x1,y1));

  #endif

  } 

  // Store the result in a possibly unaligned
  // storage
  STORE_256D_UNALIGNED_AS(double,(&res),r1);   

    
  // return
  return res;

}; // HBLAS_DOT?

}; // namespace HAXX
".
(** src/hblas/cxx/hblas3/kern.cxx, all 134 lines *)
Definition csrc_kern : string := "/*
 *  This file is a part of HAXX
 *  
 *  Copyright (c) 2017 David Williams-Young
 *  All rights reserved.
 *  
 *  See LICENSE.txt 
 */

#include ""haxx.hpp""
#include ""hblas/hblas1.hpp""
#include ""hblas/hblas3.hpp""

#include ""util/simd.hpp""
#include ""util/macro.hpp""

#include ""hblas/config/types.hpp""
#include ""hblas/config/hblas3/gemm.hpp""


namespace HAXX {

template <typename T, typename U, typename V>
 void Kern(HAXX_INT M, HAXX_INT N, HAXX_INT K, T* __restrict__ A, U* __restrict__ B, V* __restrict__ C, 
  HAXX_INT LDC);

template<>
 void Kern(HAXX_INT M, HAXX_INT N, HAXX_INT K, 
  quaternion<double>* __restrict__ A, quaternion<double>* __restrict__ B, 
  quaternion<double>* __restrict__ C, HAXX_INT LDC) {

  __m256d t1,t2,t3,t4;

  const bool M2 = (M == 2);
  const bool N2 = (N == 2);

  // Load C
  __m256d c00 = LOAD_256D_UNALIGNED_AS(double,C      );

  __m256d c10 = M2 ? LOAD_256D_UNALIGNED_AS(double,C+1    ) :
                           _mm256_setzero_pd();

  __m256d c01 = N2 ? LOAD_256D_UNALIGNED_AS(double,C+LDC  ) :
                           _mm256_setzero_pd();

  __m256d c11 = ( M2 and N2 ) ?  LOAD_256D_UNALIGNED_AS(double,C+LDC+1) :
                                 _mm256_setzero_pd();

  _MM_TRANSPOSE_4x4_PD(c00,c01,c10,c11,t1,t2,t3,t4);


  quaternion<double> *locB = B, *locA = A;

  HAXX_INT k = K;

  if( k > 0 )
  do {

    // Load A 
    __m256d a00 = LOAD_256D_ALIGNED_AS(double,locA);
    __m256d a10 = LOAD_256D_ALIGNED_AS(double,locA+1);
    locA += 2;
    

    // Load B

#ifndef _FACTOR_TRANSPOSE_INTO_B_PACK
    __m256d b00 = LOAD_256D_ALIGNED_AS(double,locB);
    __m256d b10 = LOAD_256D_ALIGNED_AS(double,locB+1);
#else
    double *BasDouble = reinterpret_cast<double*>(locB);
    __m128d b00lo = LOAD_128D_ALIGNED(BasDouble);
    __m128d b00hi = LOAD_128D_ALIGNED(BasDouble+2);
    __m128d b10lo = LOAD_128D_ALIGNED(BasDouble+4);
    __m128d b10hi = LOAD_128D_ALIGNED(BasDouble+6);
#endif
    locB += 2;


#ifdef _FACTOR_TRANSPOSE_INTO_A_PACK

    __m256d a_IIII = _mm256_permute_pd(a00,0xF);
    a00            = _mm256_permute_pd(a00,0x0); // SSSS
  
    __m256d a_KKKK = _mm256_permute_pd(a10,0xF);
    a10            = _mm256_permute_pd(a10,0x0); // SSSS

    __m256d &a00c = a_IIII;
    __m256d &a10c = a_KKKK;

#else

    __m256d a00c = a00;
    __m256d a10c = a10;
    _MM_TRANSPOSE_4x4_PD(a00,a00c,a10,a10c,t1,t2,t3,t4);

#endif

#ifdef _FACTOR_TRANSPOSE_INTO_B_PACK

    __m256d bSSSS = SET_256D_FROM_128D(b00lo,b00lo);
    __m256d bIIII = SET_256D_FROM_128D(b10lo,b10lo);
    __m256d bJJJJ = SET_256D_FROM_128D(b00hi,b00hi);
    __m256d bKKKK = SET_256D_FROM_128D(b10hi,b10hi);

    __m256d &b00  = bSSSS;
    __m256d &b10  = bIIII;
    __m256d &b00c = bJJJJ;
    __m256d &b10c = bKKKK;

#else

    __m256d b00c = b00;
    __m256d b10c = b10;
    _MM_TRANSPOSE_4x4_PD(b00,b10,b00c,b10c,t1,t2,t3,t4);

#endif

    INC_MULD4Q_NN(a00,a00c,a10,a10c,b00,b10,b00c,b10c,c00,c01,c10,c11);
  

    k--;
  } while( k > 0 );

  _MM_TRANSPOSE_4x4_PD(c00,c01,c10,c11,t1,t2,t3,t4);

  STORE_256D_UNALIGNED_AS(double,C      ,c00);
  if( M2 ) STORE_256D_UNALIGNED_AS(double,C+1    ,c10);
  if( N2 ) STORE_256D_UNALIGNED_AS(double,C+LDC  ,c01);
  if( M2 and N2 ) STORE_256D_UNALIGNED_AS(double,C+LDC+1,c11);
  

}
};
".
(** src/hblas/cxx/hblas3/gemm.cxx, all 188 lines *)
Definition csrc_gemm : string := "/*
 *  This file is a part of HAXX
 *  
 *  Copyright (c) 2017 David Williams-Young
 *  All rights reserved.
 *  
 *  See LICENSE.txt 
 */

#include ""haxx.hpp""
#include ""hblas/hblas1.hpp""
#include ""hblas/hblas3.hpp""

#include ""util/simd.hpp""
#include ""util/macro.hpp""

#include ""hblas/config/types.hpp""
#include ""hblas/config/hblas3/gemm.hpp""









namespace HAXX {

// Optimized GEMM
  
template <typename T, typename U, typename V>
void Kern(HAXX_INT M, HAXX_INT N, HAXX_INT K, T* __restrict__ A, U* __restrict__ B, V* __restrict__ C, 
  HAXX_INT LDC);






template<>
void HBLAS_GEMM(const char TRANSA, const char TRANSB, const HAXX_INT M, 
  const HAXX_INT N, const HAXX_INT K, const _ALPHAF ALPHA, _AMATF * const A, 
  const HAXX_INT LDA, _BMATF * const B, const HAXX_INT LDB, 
  const _BETAF BETA, quaternion<double> * const C, const HAXX_INT LDC) {

  const bool ATRAN = TRANSA == 'T';
  const bool ACT   = TRANSA == 'C';
  const bool ACONJ = TRANSA == 'R';

  const bool BTRAN = TRANSB == 'T';
  const bool BCT   = TRANSB == 'C';
  const bool BCONJ = TRANSB == 'R';

  // Packed matricies (aligned)
  _BMATF *bPack = 
    (_BMATF*)aligned_alloc(REQ_ALIGN,FixMod(KC*NC,REQ_ALIGN)*sizeof(_BMATF));
  _AMATF *aPack = 
    (_AMATF*)aligned_alloc(REQ_ALIGN,FixMod(KC*MC,REQ_ALIGN)*sizeof(_AMATF));


  // Scale C (on the left) by BETA
  HBLAS_SCALM('L','N',M,N,BETA,C,LDC,1);

  // Counter vars
  HAXX_INT j, nJ, jDo;
  HAXX_INT i, nI, iDo;
  HAXX_INT k, nK;
  HAXX_INT ii, jj, iii, jjj, nIII, nJJJ;

  // Initial N-cut panels of C and B
  quaternion<double> *Cj = C;
  _BMATF             *Bj = B;


  // Panel / block pointers
  _BMATF *Bp, *BL1;
  _AMATF *Ap, *Ai, *smallA;
  quaternion<double> *Ci, *CBlk, *smallC;

  for( j = 0; j < N; j += NC ) {

    nJ  = std::min(N-j,NC);
    jDo = FixMod(nJ,NR);

    Bp = Bj;
    Ap = A;

    for( k = 0; k < K; k += KC ) {

      nK = std::min(K-k,KC);

      Ai = Ap;
      Ci = Cj;

// Turn off B Pack
#if 1

#ifdef _FACTOR_ALPHA_IN_B_PACK
      if( BTRAN )      BPACKT (nJ,nK,Bp,LDB,bPack,ALPHA);
      else if( BCT )   BPACKCT(nJ,nK,Bp,LDB,bPack,ALPHA);
      else if( BCONJ ) BPACKR (nK,nJ,Bp,LDB,bPack,ALPHA);
      else             BPACK  (nK,nJ,Bp,LDB,bPack,ALPHA);
#else
      if( BTRAN )      BPACKT (nJ,nK,Bp,LDB,bPack);
      else if( BCT )   BPACKCT(nJ,nK,Bp,LDB,bPack);
      else if( BCONJ ) BPACKR (nK,nJ,Bp,LDB,bPack);
      else             BPACK  (nK,nJ,Bp,LDB,bPack);
#endif

#endif

      for( i = 0; i < M; i += MC ) {

        nI  = std::min(M-i,MC);
        iDo = FixMod(nI,MC);

        BL1  = bPack;
        CBlk = Ci;

// Turn off A Pack
#if 1

#ifdef _FACTOR_ALPHA_IN_A_PACK
        if( ATRAN )      APACKT (nK,nI,Ai,LDA,aPack,ALPHA);
        else if( ACT )   APACKCT(nK,nI,Ai,LDA,aPack,ALPHA);
        else if( ACONJ ) APACKR (nI,nK,Ai,LDA,aPack,ALPHA);
        else             APACK  (nI,nK,Ai,LDA,aPack,ALPHA);
#else
        if( ATRAN )      APACKT (nK,nI,Ai,LDA,aPack);
        else if( ACT )   APACKCT(nK,nI,Ai,LDA,aPack);
        else if( ACONJ ) APACKR (nI,nK,Ai,LDA,aPack);
        else             APACK  (nI,nK,Ai,LDA,aPack);
#endif

#endif


// Turn off Kernel evaluation
#if 1
        for( jj = 0; jj < nJ; jj += NR ) {
          nJJJ = std::min(NR,nJ-jj);

          smallC = CBlk;
          smallA = aPack;

          for( ii = 0; ii < nI; ii += MR ) {
            nIII = std::min(MR,nI-ii);

            // Perform kernel operation
            Kern(nIII,nJJJ,nK,smallA,BL1,smallC,LDC);
     
            smallC += MR;
            smallA += MR*nK;
          }

          BL1  += NR*nK;
          CBlk += NR*LDC;
        }
#endif

        if( ATRAN or ACT ) Ai += nI*LDA;
        else               Ai += nI; 

        Ci += nI;
      }

      if( ATRAN or ACT ) Ap += nK;
      else               Ap += nK*LDA;

      if( BTRAN or BCT ) Bp += nK*LDB;
      else               Bp += nK;
    }

    Cj += nJ*LDC;

    if( BTRAN or BCT ) Bj += nJ;
    else               Bj += nJ*LDB;
  }

  // Free packed matricies
  free(bPack); free(aPack);

}; // HBLAS_GEMM


}; // namespace HAXX

".
(** include/util/simd.hpp, all 29 lines *)
Definition csrc_simd_hpp : string := "/*
 *  This file is a part of HAXX
 *  
 *  Copyright (c) 2017 David Williams-Young
 *  All rights reserved.
 *  
 *  See LICENSE.txt 
 */

#ifndef __INCLUDED_UTIL_SIMD_HPP__
#define __INCLUDED_UTIL_SIMD_HPP__

// SIMD intrinsics header
  
#include <immintrin.h>

// Required boundary alignment for aligned data
#if defined(__AVX__) || defined(__AVX2__)
  #define REQ_ALIGN 32
#endif



#include ""simd/intrin_alias.hpp""
#include ""simd/misc.hpp""
#include ""simd/qop.hpp""


#endif
".
(** include/util/macro.hpp, all 24 lines *)
Definition csrc_macro_hpp : string := "/*
 *  This file is a part of HAXX
 *  
 *  Copyright (c) 2017 David Williams-Young
 *  All rights reserved.
 *  
 *  See LICENSE.txt 
 */

#ifndef __INCLUDED_UTIL_MACRO_HPP
#define __INCLUDED_UTIL_MACRO_HPP

// Misc macros

// Compute rank-2 index
#define RANK2_INDX(i,j,N) ( (i) + (j)*(N) )

// Alignment checking
#define IS_ALIGNED(X,B) ( ((unsigned long)(X) & (B-1)) == 0 )

// Fix a number for mod arithmitic
#define FixMod(X,N) (( (X) % (N) ) ? (X) + (N) - ((X) % (N)) : (X))

#endif
".
(** include/util/constants.hpp, all 18 lines *)
Definition csrc_constants_hpp : string := "/*
 *  This file is a part of HAXX
 *  
 *  Copyright (c) 2017 David Williams-Young
 *  All rights reserved.
 *  
 *  See LICENSE.txt 
 */

#ifndef __INCLUDED_UTIL_CONSTANTS_HPP__
#define __INCLUDED_UTIL_CONSTANTS_HPP__

// Compile time type constants
#define DOUBLE      0
#define DCOMPLEX    1
#define DQUATERNION 2

#endif
".
(** include/util/simd/intrin_alias.hpp, all 101 lines *)
Definition csrc_intrin_alias_hpp : string := "/*
 *  This file is a part of HAXX
 *  
 *  Copyright (c) 2017 David Williams-Young
 *  All rights reserved.
 *  
 *  See LICENSE.txt 
 */

#ifndef __INCLUDED_SIMD_INTRIN_ALIAS_HPP__
#define __INCLUDED_SIMD_INTRIN_ALIAS_HPP__

// Alias SIMD intrinsics


// 256-bit vectors

// Load operations
#define LOAD_256D_ALIGNED(X)    _mm256_load_pd(X)
#define LOAD_256D_UNALIGNED(X)  _mm256_loadu_pd(X)

#define LOAD_128D_ALIGNED(X)    _mm_load_pd(X)
#define LOAD_128D_UNALIGNED(X)  _mm_loadu_pd(X)

// Load operations with proper cast
#define LOAD_256D_ALIGNED_AS(T,X)\
  LOAD_256D_ALIGNED(const_cast<T*>(reinterpret_cast<const T*>(X)))
#define LOAD_256D_UNALIGNED_AS(T,X)\
  LOAD_256D_UNALIGNED(const_cast<T*>(reinterpret_cast<const T*>(X)))

#define LOAD_128D_ALIGNED_AS(T,X)\
  LOAD_128D_ALIGNED(const_cast<T*>(reinterpret_cast<const T*>(X)))
#define LOAD_128D_UNALIGNED_AS(T,X)\
  LOAD_128D_UNALIGNED(const_cast<T*>(reinterpret_cast<const T*>(X)))


// Store operations
#define STORE_256D_ALIGNED(X,V)    _mm256_store_pd(X,V)
#define STORE_256D_UNALIGNED(X,V)  _mm256_storeu_pd(X,V)

// Store operations with proper cast
#define STORE_256D_ALIGNED_AS(T,X,V)\
  STORE_256D_ALIGNED(reinterpret_cast<T*>(X),V)
#define STORE_256D_UNALIGNED_AS(T,X,V)\
  STORE_256D_UNALIGNED(reinterpret_cast<T*>(X),V)


// Getting / Assembling operations
#define GET_LO_128D_256D(X) _mm256_castpd256_pd128(X)
#define GET_HI_128D_256D(X) _mm256_extractf128_pd((X),1)

#define SET_256D_FROM_128D(X,Y) \
  _mm256_castps_pd(\
    _mm256_insertf128_ps(\
      _mm256_castps128_ps256(_mm_castpd_ps(X)),\
      _mm_castpd_ps(Y),1)\
  );













// FMA / FMS operations (D = +-(A*B) +- C)

// Emulate FMA with two instructions
#ifndef __FMA__

  // 256-bit vectors
  #define FMA_256D(A,B,C)  _mm256_add_pd(_mm256_mul_pd(A,B),C)
  #define FMS_256D(A,B,C)  _mm256_sub_pd(_mm256_mul_pd(A,B),C)
  #define FNMA_256D(A,B,C) _mm256_sub_pd(C,_mm256_mul_pd(A,B))

#else

  // 256-bit vectors
  #define FMA_256D(A,B,C)  _mm256_fmadd_pd(A,B,C)
  #define FMS_256D(A,B,C)  _mm256_fmsub_pd(A,B,C)
  #define FNMA_256D(A,B,C) _mm256_fnmadd_pd(A,B,C)

#endif












#endif
".
(** include/util/simd/misc.hpp, all 52 lines *)
Definition csrc_misc_hpp : string := "/*
 *  This file is a part of HAXX
 *  
 *  Copyright (c) 2017 David Williams-Young
 *  All rights reserved.
 *  
 *  See LICENSE.txt 
 */

#ifndef __INCLUDED_SIMD_MISC_HPP__
#define __INCLUDED_SIMD_MISC_HPP__


// Load operations

// Load aligned with cast
#define LOADD_ALIGNED_AS(T,X) \
  LOADD_ALIGNED(const_cast<T*>(reinterpret_cast<const T*>(X)))

// Load unaligned with cast
#define LOADD_UNALIGNED_AS(T,X) \
  LOADD_UNALIGNED(const_cast<T*>(reinterpret_cast<const T*>(X)))

// Store aligned with cast
#define STORED_ALIGNED_AS(T,X,V) \
  STORED_ALIGNED(reinterpret_cast<T*>(X),V)

// Load unaligned with cast
#define STORED_UNALIGNED_AS(T,X,V) \
  STORED_UNALIGNED(reinterpret_cast<T*>(X),V)




#if defined(__AVX__) || defined(__AVX2__)

  // Transpose 4x4 registers (with scratch space)
  #define _MM_TRANSPOSE_4x4_PD(w,x,y,z,t1,t2,t3,t4) \
    t1 = _mm256_shuffle_pd(w, x, 0x0);\
    t3 = _mm256_shuffle_pd(w, x, 0xF);\
    t2 = _mm256_shuffle_pd(y, z, 0x0);\
    t4 = _mm256_shuffle_pd(y, z, 0xF);\
    \
    w = _mm256_permute2f128_pd(t1, t2, 0x20);\
    x = _mm256_permute2f128_pd(t3, t4, 0x20);\
    y = _mm256_permute2f128_pd(t1, t2, 0x31);\
    z = _mm256_permute2f128_pd(t3, t4, 0x31);
    
  
  #endif

#endif
".
(** include/util/simd/qop.hpp, all 440 lines *)
Definition csrc_qop_hpp : string := "/*
 *  This file is a part of HAXX
 *  
 *  Copyright (c) 2017 David Williams-Young
 *  All rights reserved.
 *  
 *  See LICENSE.txt 
 */
#ifndef __INCLUDED_SIMD_QOP_HPP__
#define __INCLUDED_SIMD_QOP_HPP__

#include <iostream>

namespace HAXX {

  // Misc operations

  #define QCONJ_256D(X) \
    _mm256_xor_pd(X,\
      _mm256_castsi256_pd( \
        _mm256_set_epi64x(\
          0x8000000000000000,\
          0x8000000000000000,\
          0x8000000000000000,\
          0x0000000000000000\
        )\
      )\
    )


  // Single Quaternion Multiplication


  /**
   *  \brief Multiply two quaternions as 4 packed  64-bit floats
   *  int a 256-bit vector lane.
   *
   *  \param[in]  x  Packed LHS quaternion
   *  \param[in]  y  Packed RHS quaternion
   *
   *  \returns r = x * y
   */ 
  inline __m256d MULDQ_NN(const __m256d &x, const __m256d &y) {

    const __m256i maskScalar = _mm256_set_epi64x(0,0,0,0x8000000000000000);
    // Get the low and high-bits of x and y
    __m128d xLo = GET_LO_128D_256D(x);
    __m128d yLo = GET_LO_128D_256D(y);
    __m128d xHi = GET_HI_128D_256D(x);
    __m128d yHi = GET_HI_128D_256D(y);

    // 1123 Permutation of x
    __m256d x1123 = _mm256_permute_pd(x, 0xB); // 1011: 0123 -> 1123

    // 2231 Permutation of x
    __m128d rLo = _mm_shuffle_pd(xHi,xHi, 0x0); // 0000: 23;23 -> 22
    __m128d rHi = _mm_shuffle_pd(xHi,xLo, 0x3); // 0010: 23;01 -> 31
    __m256d x2231 = SET_256D_FROM_128D(rLo,rHi);

    // 1000 Permutation of y
    rLo = _mm_shuffle_pd(yLo,yLo, 0x1); // 0001: 01;01 -> 11
    rHi = _mm_shuffle_pd(yLo,yLo, 0x0); // 0000: 01;01 -> 00
    __m256d y1000 = SET_256D_FROM_128D(rLo,rHi);

    // 2312 Permutation of y
    rHi = _mm_shuffle_pd(yLo,yHi, 0x1); // 0001: 01;23 -> 12
    __m256d y2312 = SET_256D_FROM_128D(yHi,rHi);

    // t1 = x1123 * y1000
    __m256d t1  = _mm256_mul_pd(x1123,y1000);

    // t12 = t1 + x2231 * y2312 
    __m256d t12 = FMA_256D(x2231,y2312,t1);

    // Flip scalar sign bit on t12
    t12 = _mm256_xor_pd(t12,_mm256_castsi256_pd(maskScalar));

    
    // 3312 Permutation of x
    rLo = _mm_shuffle_pd(xHi,xHi, 0x3); // 0010: 23;23 -> 33
    rHi = _mm_shuffle_pd(xLo,xHi, 0x1); // 0001: 01;23 -> 12
    __m256d x3312 = SET_256D_FROM_128D(rLo,rHi);

    // 0000 Permutation of x
    rHi = _mm_shuffle_pd(xLo,xLo, 0x0); // 0000: 01;01 -> 00
    __m256d x0000 = SET_256D_FROM_128D(rHi,rHi);


    // 3231 Permutation of y
    rLo = _mm_shuffle_pd(yHi,yHi, 0x1); // 0001: 23;23 -> 32
    rHi = _mm_shuffle_pd(yHi,yLo, 0x3); // 0010: 23;01 -> 31
    __m256d y3231 = SET_256D_FROM_128D(rLo,rHi);

    
    // t3 = x3312 * y3231
    __m256d t3  = _mm256_mul_pd(x3312,y3231);

    // t03 = t3 + x000y * y
    __m256d t03 = FMS_256D(x0000,y,t3);

    // r = t03 + t12
    return _mm256_add_pd(t03,t12);

  };


  /**
   *  \brief Multiply two quaternions as 4 packed  64-bit floats
   *  int a 256-bit vector lane.
   *
   *  \param[in]  x  Packed LHS quaternion
   *  \param[in]  y  Packed RHS quaternion
   *
   *  \returns r = CONJ(x) * y
   */ 
  inline __m256d MULDQ_CN(__m256d &x, __m256d &y) {

/*
    const __m256i maskVec = 
      _mm256_set_epi64x(0x8000000000000000,0x8000000000000000,
                        0x8000000000000000,0);

    // Flip the sign bits on the vector part of x -> CONJ(x)
    x = _mm256_xor_pd(x,_mm256_castsi256_pd(maskVec));
*/

    // r = CONJ(x) * y
    return MULDQ_NN(QCONJ_256D(x),y);

  }


  // Batched Quaternion Multiplication 
  
  /**
   *  \brief Increment each of the quaternion components
   *  of the quaternion product by their LHS scalar 
   *  contribution.
   *
   *  R(S) += X(S) * Y(S)
   *  R(I) += X(S) * Y(I)
   *  R(J) += X(S) * Y(J)
   *  R(K) += X(S) * Y(J)
   *
   *  \param[in]      x1  Packed X(S)
   *  \param[in]      x2  Packed X(I)
   *  \param[in]      x3  Packed X(J)
   *  \param[in]      x4  Packed X(K)
   *
   *  \param[in]      y1  Packed Y(S)
   *  \param[in]      y2  Packed Y(I)
   *  \param[in]      y3  Packed Y(J)
   *  \param[in]      y4  Packed Y(K)
   *
   *  \param[in/out]  x1  Packed R(S)
   *  \param[in/out]  x2  Packed R(I)
   *  \param[in/out]  x3  Packed R(J)
   *  \param[in/out]  x4  Packed R(K)
   */
  inline void INC_MULD4Q_SCALAR(
    __m256d &x1, __m256d &x2, __m256d &x3, __m256d &x4,
    __m256d &y1, __m256d &y2, __m256d &y3, __m256d &y4,
    __m256d &r1, __m256d &r2, __m256d &r3, __m256d &r4) {
  
  
    r1 = FMA_256D(x1,y1,r1);
    r2 = FMA_256D(x1,y2,r2);
    r3 = FMA_256D(x1,y3,r3);
    r4 = FMA_256D(x1,y4,r4);
  
  }
  
  /**
   *  \brief Initialize each of the quaternion components
   *  of the quaternion product by their LHS scalar 
   *  contribution.
   *
   *  R(S) = X(S) * Y(S)
   *  R(I) = X(S) * Y(I)
   *  R(J) = X(S) * Y(J)
   *  R(K) = X(S) * Y(J)
   *
   *  \param[in]      x1  Packed X(S)
   *  \param[in]      x2  Packed X(I)
   *  \param[in]      x3  Packed X(J)
   *  \param[in]      x4  Packed X(K)
   *
   *  \param[in]      y1  Packed Y(S)
   *  \param[in]      y2  Packed Y(I)
   *  \param[in]      y3  Packed Y(J)
   *  \param[in]      y4  Packed Y(K)
   *
   *  \param[in/out]  x1  Packed R(S)
   *  \param[in/out]  x2  Packed R(I)
   *  \param[in/out]  x3  Packed R(J)
   *  \param[in/out]  x4  Packed R(K)
   */
  inline void MULD4Q_SCALAR(
    __m256d &x1, __m256d &x2, __m256d &x3, __m256d &x4,
    __m256d &y1, __m256d &y2, __m256d &y3, __m256d &y4,
    __m256d &r1, __m256d &r2, __m256d &r3, __m256d &r4) {
  
  
    r1 = _mm256_mul_pd(x1,y1);
    r2 = _mm256_mul_pd(x1,y2);
    r3 = _mm256_mul_pd(x1,y3);
    r4 = _mm256_mul_pd(x1,y4);
  
  }
  
  /**
   *  \brief Increment the components of the unconjugated quaternion 
   *  product by their LHS vector contributions.
   *
   *
   *  R(S) -=  X(I)*Y(I) + X(J)*Y(J) + X(K)*Y(K)
   *  R(I) +=  X(I)*Y(S) + X(J)*Y(K) - X(K)*Y(J)
   *  R(J) += -X(I)*Y(K) + X(J)*Y(S) + X(K)*Y(I)
   *  R(K) +=  X(I)*Y(J) - X(J)*Y(I) - X(K)*Y(S)
   *
   *  \param[in]      x1  Packed X(S)
   *  \param[in]      x2  Packed X(I)
   *  \param[in]      x3  Packed X(J)
   *  \param[in]      x4  Packed X(K)
   *
   *  \param[in]      y1  Packed Y(S)
   *  \param[in]      y2  Packed Y(I)
   *  \param[in]      y3  Packed Y(J)
   *  \param[in]      y4  Packed Y(K)
   *
   *  \param[in/out]  x1  Packed R(S)
   *  \param[in/out]  x2  Packed R(I)
   *  \param[in/out]  x3  Packed R(J)
   *  \param[in/out]  x4  Packed R(K)
   *
   */
  inline void VEC_MULD4Q_NN(
    __m256d &x1, __m256d &x2, __m256d &x3, __m256d &x4,
    __m256d &y1, __m256d &y2, __m256d &y3, __m256d &y4,
    __m256d &r1, __m256d &r2, __m256d &r3, __m256d &r4) {
  
    r1 = FNMA_256D(x2,y2,r1); 
    r1 = FNMA_256D(x3,y3,r1); 
    r1 = FNMA_256D(x4,y4,r1); 
   
    r2 = FMA_256D(x2,y1,r2); 
    r2 = FMA_256D(x3,y4,r2); 
    r2 = FNMA_256D(x4,y3,r2); 
   
    r3 = FNMA_256D(x2,y4,r3); 
    r3 = FMA_256D(x3,y1,r3); 
    r3 = FMA_256D(x4,y2,r3); 
   
    r4 = FMA_256D(x2,y3,r4); 
    r4 = FNMA_256D(x3,y2,r4); 
    r4 = FMA_256D(x4,y1,r4);
  
  
  };
  
  
  /**
   *  \brief Increment the components of the left-conjugated quaternion 
   *  product by their LHS vector contributions.
   *
   *
   *  R(S) +=  X(I)*Y(I) + X(J)*Y(J) + X(K)*Y(K)
   *  R(I) += -X(I)*Y(S) - X(J)*Y(K) + X(K)*Y(J)
   *  R(J) +=  X(I)*Y(K) - X(J)*Y(S) - X(K)*Y(I)
   *  R(K) += -X(I)*Y(J) + X(J)*Y(I) + X(K)*Y(S)
   *
   *  \param[in]      x1  Packed X(S)
   *  \param[in]      x2  Packed X(I)
   *  \param[in]      x3  Packed X(J)
   *  \param[in]      x4  Packed X(K)
   *
   *  \param[in]      y1  Packed Y(S)
   *  \param[in]      y2  Packed Y(I)
   *  \param[in]      y3  Packed Y(J)
   *  \param[in]      y4  Packed Y(K)
   *
   *  \param[in/out]  x1  Packed R(S)
   *  \param[in/out]  x2  Packed R(I)
   *  \param[in/out]  x3  Packed R(J)
   *  \param[in/out]  x4  Packed R(K)
   *
   */
  inline void VEC_MULD4Q_CN(
    __m256d &x1, __m256d &x2, __m256d &x3, __m256d &x4,
    __m256d &y1, __m256d &y2, __m256d &y3, __m256d &y4,
    __m256d &r1, __m256d &r2, __m256d &r3, __m256d &r4) {
  
    r1 = FMA_256D(x2,y2,r1); 
    r1 = FMA_256D(x3,y3,r1); 
    r1 = FMA_256D(x4,y4,r1); 
   
    r2 = FNMA_256D(x2,y1,r2); 
    r2 = FNMA_256D(x3,y4,r2); 
    r2 = FMA_256D(x4,y3,r2); 
   
    r3 = FMA_256D(x2,y4,r3); 
    r3 = FNMA_256D(x3,y1,r3); 
    r3 = FNMA_256D(x4,y2,r3); 
   
    r4 = FNMA_256D(x2,y3,r4); 
    r4 = FMA_256D(x3,y2,r4); 
    r4 = FNMA_256D(x4,y1,r4);
  
  
  };
  
  
  /**
   *  Perform the packed unconjugated quaternion product of
   *  4 packed quaternions in place.
   *
   *  \param[in]      x1  Packed X(S)
   *  \param[in]      x2  Packed X(I)
   *  \param[in]      x3  Packed X(J)
   *  \param[in]      x4  Packed X(K)
   *
   *  \param[in]      y1  Packed Y(S)
   *  \param[in]      y2  Packed Y(I)
   *  \param[in]      y3  Packed Y(J)
   *  \param[in]      y4  Packed Y(K)
   *
   *  \param[in/out]  x1  Packed R(S)
   *  \param[in/out]  x2  Packed R(I)
   *  \param[in/out]  x3  Packed R(J)
   *  \param[in/out]  x4  Packed R(K)
   */
  inline void MULD4Q_NN(
    __m256d &x1, __m256d &x2, __m256d &x3, __m256d &x4,
    __m256d &y1, __m256d &y2, __m256d &y3, __m256d &y4,
    __m256d &r1, __m256d &r2, __m256d &r3, __m256d &r4) {
  
    MULD4Q_SCALAR(x1,x2,x3,x4,y1,y2,y3,y4,r1,r2,r3,r4);
    VEC_MULD4Q_NN(x1,x2,x3,x4,y1,y2,y3,y4,r1,r2,r3,r4);
  
  };
  
  
  
  /**
   *  Perform the packed left-conjugated quaternion product of
   *  4 packed quaternions in place.
   *
   *  \param[in]      x1  Packed X(S)
   *  \param[in]      x2  Packed X(I)
   *  \param[in]      x3  Packed X(J)
   *  \param[in]      x4  Packed X(K)
   *
   *  \param[in]      y1  Packed Y(S)
   *  \param[in]      y2  Packed Y(I)
   *  \param[in]      y3  Packed Y(J)
   *  \param[in]      y4  Packed Y(K)
   *
   *  \param[in/out]  x1  Packed R(S)
   *  \param[in/out]  x2  Packed R(I)
   *  \param[in/out]  x3  Packed R(J)
   *  \param[in/out]  x4  Packed R(K)
   */
  inline void MULD4Q_CN(
    __m256d &x1, __m256d &x2, __m256d &x3, __m256d &x4,
    __m256d &y1, __m256d &y2, __m256d &y3, __m256d &y4,
    __m256d &r1, __m256d &r2, __m256d &r3, __m256d &r4) {
  
    MULD4Q_SCALAR(x1,x2,x3,x4,y1,y2,y3,y4,r1,r2,r3,r4);
    VEC_MULD4Q_CN(x1,x2,x3,x4,y1,y2,y3,y4,r1,r2,r3,r4);
  
  };
  
  
  /**
   *  Perform the packed unconjugated quaternion product of
   *  4 packed quaternions while incrementing the result
   *  storage.
   *
   *  \param[in]      x1  Packed X(S)
   *  \param[in]      x2  Packed X(I)
   *  \param[in]      x3  Packed X(J)
   *  \param[in]      x4  Packed X(K)
   *
   *  \param[in]      y1  Packed Y(S)
   *  \param[in]      y2  Packed Y(I)
   *  \param[in]      y3  Packed Y(J)
   *  \param[in]      y4  Packed Y(K)
   *
   *  \param[in/out]  x1  Packed R(S)
   *  \param[in/out]  x2  Packed R(I)
   *  \param[in/out]  x3  Packed R(J)
   *  \param[in/out]  x4  Packed R(K)
   */
  inline void INC_MULD4Q_NN(
    __m256d &x1, __m256d &x2, __m256d &x3, __m256d &x4,
    __m256d &y1, __m256d &y2, __m256d &y3, __m256d &y4,
    __m256d &r1, __m256d &r2, __m256d &r3, __m256d &r4) {
  
    INC_MULD4Q_SCALAR(x1,x2,x3,x4,y1,y2,y3,y4,r1,r2,r3,r4);
        VEC_MULD4Q_NN(x1,x2,x3,x4,y1,y2,y3,y4,r1,r2,r3,r4);
  
  };
  
  
  
  
  
  /**
   *  Perform the packed left-conjugated quaternion product of
   *  4 packed quaternions while incrementing the result
   *  storage.
   *
   *  \param[in]      x1  Packed X(S)
   *  \param[in]      x2  Packed X(I)
   *  \param[in]      x3  Packed X(J)
   *  \param[in]      x4  Packed X(K)
   *
   *  \param[in]      y1  Packed Y(S)
   *  \param[in]      y2  Packed Y(I)
   *  \param[in]      y3  Packed Y(J)
   *  \param[in]      y4  Packed Y(K)
   *
   *  \param[in/out]  x1  Packed R(S)
   *  \param[in/out]  x2  Packed R(I)
   *  \param[in/out]  x3  Packed R(J)
   *  \param[in/out]  x4  Packed R(K)
   */
  inline void INC_MULD4Q_CN(
    __m256d &x1, __m256d &x2, __m256d &x3, __m256d &x4,
    __m256d &y1, __m256d &y2, __m256d &y3, __m256d &y4,
    __m256d &r1, __m256d &r2, __m256d &r3, __m256d &r4) {
  
    INC_MULD4Q_SCALAR(x1,x2,x3,x4,y1,y2,y3,y4,r1,r2,r3,r4);
        VEC_MULD4Q_CN(x1,x2,x3,x4,y1,y2,y3,y4,r1,r2,r3,r4);
  
  };

};

#endif
".
(** include/hblas/config/types.hpp, all 61 lines *)
Definition csrc_types_hpp : string := "/*
 *  This file is a part of HAXX
 *  
 *  Copyright (c) 2017 David Williams-Young
 *  All rights reserved.
 *  
 *  See LICENSE.txt 
 */

#ifndef __INCLUDED_HBLAS_CONFIG_TYPES_HPP
#define __INCLUDED_HBLAS_CONFIG_TYPES_HPP

#include ""util/constants.hpp""

// Determine type of scaling parameter ALPHA
#ifdef ALPHAF
  #if ALPHAF == DOUBLE
    #define _ALPHAF double
  #elif ALPHAF == DCOMPLEX
    #define _ALPHAF std::complex<double>
  #elif ALPHAF == DQUATERNION
    #define _ALPHAF quaternion<double>
  #endif
#endif

// Determine type of scaling parameter BETA
#ifdef BETAF
  #if BETAF == DOUBLE
    #define _BETAF double
  #elif BETAF == DCOMPLEX
    #define _BETAF std::complex<double>
  #elif BETAF == DQUATERNION
    #define _BETAF quaternion<double>
  #endif
#endif

// Determine type of matrix type AMAT
#ifdef AMATF
  #if AMATF == DOUBLE
    #define _AMATF double
  #elif AMATF == DCOMPLEX
    #define _AMATF std::complex<double>
  #elif AMATF == DQUATERNION
    #define _AMATF quaternion<double>
  #endif
#endif

// Determine type of matrix type BMAT
#ifdef BMATF
  #if BMATF == DOUBLE
    #define _BMATF double
  #elif BMATF == DCOMPLEX
    #define _BMATF std::complex<double>
  #elif BMATF == DQUATERNION
    #define _BMATF quaternion<double>
  #endif
#endif



#endif
".
(** include/hblas/config/hblas3/gemm.hpp, all 85 lines *)
Definition csrc_gemm_hpp : string := "/*
 *  This file is a part of HAXX
 *  
 *  Copyright (c) 2017 David Williams-Young
 *  All rights reserved.
 *  
 *  See LICENSE.txt 
 */

#ifndef __INCLUDED_HBLAS_CONFIG_HBLAS3_GEMM_HPP
#define __INCLUDED_HBLAS_CONFIG_HBLAS3_GEMM_HPP


#include ""hblas/config/types.hpp""

// Caching dimensions

#ifndef MC
  #define MC 64
#endif
#ifndef NC
  #define NC 512
#endif
#ifndef KC
  #define KC 64
#endif

// Register block size
#define MR 2
#define NR 2


// Determine where to factor ALPHA scaling
#define _FACTOR_ALPHA_IN_A_PACK
//#define _FACTOR_ALPHA_IN_B_PACK

#if defined(_FACTOR_ALPHA_IN_A_PACK) && defined(_FACTOR_ALPHA_IN_B_PACK)
  #error ""Cannot factor ALPHA into both A and B packs""
#endif


// Determine where to factor the transpose operation
// for GEMM kernel
#define _FACTOR_TRANSPOSE_INTO_A_PACK
#define _FACTOR_TRANSPOSE_INTO_B_PACK



// Determine packing utility for GEMM

#include ""hblas/pack/pack.hpp""

#ifdef _FACTOR_TRANSPOSE_INTO_B_PACK

  #define BPACKT  NPACK< NR, _AMATF, GenericPackOps_T2<> >    
  #define BPACKCT NPACK< NR, _AMATF, ConjPackOps_T2   <> >
  #define BPACKR  TPACK< NR, _AMATF, ConjPackOps_T2   <> >
  #define BPACK   TPACK< NR, _AMATF, GenericPackOps_T2<> >      

#else

  #define BPACKT  NPACK< NR, _BMATF, GenericPackOps<_BMATF> >
  #define BPACKCT NPACK< NR, _BMATF, ConjPackOps   <_BMATF> >
  #define BPACKR  TPACK< NR, _BMATF, ConjPackOps   <_BMATF> >
  #define BPACK   TPACK< NR, _BMATF, GenericPackOps<_BMATF> >   

#endif

#ifdef _FACTOR_TRANSPOSE_INTO_A_PACK

  #define APACKT  TPACK< MR, _AMATF, GenericPackOps_T1<> > 
  #define APACKCT TPACK< MR, _AMATF, ConjPackOps_T1   <> >
  #define APACKR  NPACK< MR, _AMATF, ConjPackOps_T1   <> >
  #define APACK   NPACK< MR, _AMATF, GenericPackOps_T1<> >   

#else

  #define APACKT  TPACK< MR, _AMATF, GenericPackOps<_AMATF> >
  #define APACKCT TPACK< MR, _AMATF, ConjPackOps   <_AMATF> >
  #define APACKR  NPACK< MR, _AMATF, ConjPackOps   <_AMATF> >
  #define APACK   NPACK< MR, _AMATF, GenericPackOps<_AMATF> >    

#endif

#endif
".
